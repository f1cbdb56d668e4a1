(** The multiprecision solution vectors. *)
From Coq Require Import Reals Lra Lia ZArith List Bool Arith.
From Coquelicot Require Import Coquelicot.
From Verif Require Import Base.RealAux Base.Analysis Model.LimbDark Model.Poly Model.SolutionVector Model.MpSolution
  Spec.LimbDarkSpec Spec.BasisSpec Spec.DiskSpec Spec.OccultSpec Spec.SkySpec Spec.QuadSpec
  Proof.BasisProof Proof.GreenProof Proof.LimbDarkGreen Proof.Ray Proof.LimbDarkProof Proof.LimbDarkArea Proof.Edge Proof.Occult Proof.Monomial Proof.GreenLine Proof.GreenFamilies Proof.SolutionGreen Proof.SolutionQuad Proof.OccultedSky Proof.OddLimit.
Import ListNotations.
Open Scope R_scope.

Lemma sub_double (F f : R -> R) k : 0 <= k -> (forall x, continuous F x) -> (forall x, F (- x) = F x) -> (forall x, - k / 2 < x < k / 2 -> f x = F (2 * x)) -> is_RInt f (- k / 2) (k / 2) (RInt F 0 k).
Proof.
  intros Hk C E H. assert (A : is_RInt F (- k) k (2 * RInt F 0 k)).
  { replace (2 * RInt F 0 k) with (RInt F 0 k + RInt F 0 k) by ring. apply (is_RInt_Chasles F (- k) 0 k); [|apply rint_cont, C].
    assert (B := is_RInt_comp_opp F (- k) 0 (RInt F 0 k)). rewrite Ropp_involutive, Ropp_0 in B.
    assert (B0 : is_RInt F k 0 (- RInt F 0 k)) by (apply (is_RInt_swap F k 0), rint_cont, C). 
    assert (B1 := is_RInt_comp_opp F (- k) 0 (- RInt F 0 k)). rewrite Ropp_involutive, Ropp_0 in B1. specialize (B1 B0). apply (is_RInt_opp (V := R_NormedModule)) in B1. 
    apply (rint_ext_v _ F) in B1; [|intros x _; cbv beta; change (opp (opp (F (- x)))) with (- - F (- x)); rewrite Ropp_involutive; apply E]. change (opp (- RInt F 0 k)) with (- - RInt F 0 k) in B1. rewrite Ropp_involutive in B1. exact B1. }
  assert (B := is_RInt_comp_lin F 2 0 (- k / 2) (k / 2) (2 * RInt F 0 k)). replace (2 * (- k / 2) + 0) with (- k) in B by field. replace (2 * (k / 2) + 0) with k in B by field. specialize (B A).
  apply (is_RInt_scal (V := R_NormedModule) _ _ _ (/ 2)) in B. replace (RInt F 0 k) with (/ 2 * (2 * RInt F 0 k)) by field.
  apply (rint_ext_v (fun x => / 2 * (2 * F (2 * x + 0)))); [exact B|]. intros x Hx. rewrite Rmin_left, Rmax_right in Hx by lra. rewrite H by exact Hx. rewrite Rplus_0_r. field.
Qed.
Lemma sub_shift (F f : R -> R) k : 0 <= k -> (forall x, continuous F x) -> (forall x, - k / 2 < x < k / 2 -> f x = F (x + / 2 * k)) -> is_RInt f (- k / 2) (k / 2) (RInt F 0 k).
Proof.
  intros Hk C H. assert (B := is_RInt_comp_lin F 1 (/ 2 * k) (- k / 2) (k / 2) (RInt F 0 k)). replace (1 * (- k / 2) + / 2 * k) with 0 in B by field. replace (1 * (k / 2) + / 2 * k) with k in B by field. specialize (B (rint_cont F 0 k C)).
  apply (rint_ext_v (fun x => 1 * F (1 * x + / 2 * k))); [exact B|]. intros x Hx. rewrite Rmin_left, Rmax_right in Hx by lra. rewrite H by exact Hx. rewrite !Rmult_1_l. reflexivity.
Qed.
Lemma edge_pair_even l nu b r t : edge_pair l nu b r (- t) = edge_pair l nu b r t.
Proof. unfold edge_pair. rewrite Ropp_involutive. ring. Qed.
(** ** the integrands *)
Lemma sin2_half x : sin x ^ 2 = (1 - cos (2 * x)) / 2.
Proof. rewrite cos_2a_sin. field. Qed.
Lemma sin4_half x : sin x ^ 2 - (sin x ^ 2) ^ 2 = sin (2 * x) ^ 2 / 4.
Proof. assert (Q := sin2_cos2 x). unfold Rsqr in Q. rewrite sin_2a. replace (sin x ^ 2 - (sin x ^ 2) ^ 2) with (sin x * sin x * (1 - sin x * sin x)) by ring. replace (1 - sin x * sin x) with (cos x * cos x) by lra. field. Qed.
Lemma re_pow32_p32 x : re_pow32 x = p32 x.
Proof. unfold re_pow32, p32, Rltb. destruct (Rlt_dec x 0) as [L|L]; [|reflexivity]. rewrite (sqrt_neg_0 x) by lra. ring. Qed.
Section integrand.
Variables (b r : R).
Hypotheses (Hb : 0 < b) (Hr : 0 < r).
Lemma delta_psi x : (b - r) / (2 * r) + sin x ^ 2 = (b - r * cos (2 * x)) / (2 * r).
Proof. rewrite sin2_half. field. lra. Qed.
Lemma pow32_psi x : pow32 (4 * b * r) * re_pow32 ((1 - r² - b² + 2 * b * r) / (4 * b * r) - sin x ^ 2) = p32 (1 - erho2 b r (2 * x)).
Proof.
  assert (BR : 0 < 4 * b * r) by (apply Rmult_lt_0_compat; lra). rewrite re_pow32_p32, sin2_half. set (c := cos (2 * x)). assert (E : 1 - erho2 b r (2 * x) = 4 * b * r * ((1 - r² - b² + 2 * b * r) / (4 * b * r) - (1 - c) / 2)). { unfold erho2, Rsqr. fold c. field. split; lra. }
  rewrite E. set (w := _ - (1 - c) / 2). unfold pow32, p32. destruct (Rle_dec 0 w) as [L|L].
  - rewrite (sqrt_mult (4 * b * r) w) by lra. ring.
  - rewrite (sqrt_neg_0 w) by lra. rewrite (sqrt_neg_0 (4 * b * r * w)); [ring|]. apply Rnot_le_lt in L. assert (Q := Rmult_lt_compat_l _ _ _ BR L). lra.
Qed.
Definition double (l nu : nat) : Prop := match mp_func b r l nu with Some f => forall x, f x = edge_pair l nu b r (2 * x) | None => forall t, edge_pair l nu b r t = 0 end.
Lemma d_even i j : double (i + j) (2 * j).
Proof.
  unfold double, mp_func. cbv zeta. replace (2 * (i + j) - 2 * j)%nat with (2 * i)%nat by lia. rewrite mod2_even, !div2_even. cbn [Nat.eqb andb].
  destruct (Nat.even i) eqn:Ei.
  - destruct (even_2h i Ei) as [q ->]. rewrite mod2_even. cbn [Nat.eqb]. intros x. rewrite ep_even, neg_even, sin4_half, delta_psi. replace ((2 * (2 * q) + 4) / 4)%nat with (S q).
    2:{ replace (2 * (2 * q) + 4)%nat with (S q * 4)%nat by lia. now rewrite Nat.div_mul by lia. }
    replace (2 * q + j + 2)%nat with (2 * S q + j)%nat by lia. replace (2 * q + 2)%nat with (2 * S q)%nat by lia. rewrite <- (pow_edge r (sin (2 * x)) (b - r * cos (2 * x)) (S q) j) by lra. ring.
  - destruct (odd_2h i Ei) as [q ->]. rewrite mod2_odd. cbn [Nat.eqb]. replace (2 * (2 * q + 1) =? 1)%nat with false by (symmetry; apply Nat.eqb_neq; lia). cbn [andb]. intros t. rewrite ep_even, neg_odd. ring.
Qed.
Lemma d_mu1e h : (1 <= h)%nat -> double (2 * h) (4 * h - 1).
Proof.
  intros Hh. unfold double, mp_func. cbv zeta. replace (2 * (2 * h) - (4 * h - 1))%nat with 1%nat by lia. rewrite mod2_even. change (1 mod 2)%nat with 1%nat. cbn [Nat.eqb andb]. intros x. rewrite ep_mu1e by exact Hh. rewrite sin4_half.
  replace (2 * h - 2)%nat with (2 * (h - 1))%nat by lia. rewrite div2_even. replace (1 - 2 * sin x ^ 2) with (cos (2 * x)) by (rewrite sin2_half; field). set (psi := 2 * x).
  replace (2 * h - 1)%nat with (S (2 * (h - 1)))%nat by lia. assert (P := pow_edge r (sin psi) 1 (h - 1) 0 ltac:(lra)). rewrite Nat.add_0_r, !pow_O, !Rmult_1_r in P. rewrite <- P, <- tech_pow_Rmult. unfold psi at 4. rewrite <- pow32_psi. unfold psi. ring.
Qed.
Lemma d_mu1o h : (1 <= h)%nat -> double (2 * h + 1) (4 * h + 1).
Proof.
  intros Hh. unfold double, mp_func. cbv zeta. replace (2 * (2 * h + 1) - (4 * h + 1))%nat with 1%nat by lia. rewrite mod2_odd. change (1 mod 2)%nat with 1%nat. replace (2 * h + 1 =? 1)%nat with false by (symmetry; apply Nat.eqb_neq; lia). cbn [Nat.eqb andb negb]. intros x. rewrite ep_mu1o by exact Hh. rewrite sin4_half, delta_psi.
  replace (2 * h + 1 - 3)%nat with (2 * (h - 1))%nat by lia. rewrite div2_even. replace (1 - 2 * sin x ^ 2) with (cos (2 * x)) by (rewrite sin2_half; field). rewrite <- pow32_psi. set (psi := 2 * x).
  replace (2 * h - 2)%nat with (2 * (h - 1))%nat by lia. replace (2 * h + 1 - 1)%nat with (S (2 * (h - 1) + 1)) by lia. assert (P := pow_edge r (sin psi) (b - r * cos psi) (h - 1) 1 ltac:(lra)). rewrite !pow_1 in P. rewrite <- tech_pow_Rmult. set (p := pow32 _). set (q := re_pow32 _).
  transitivity (2 * r * p * q * cos psi * ((r * sin psi) ^ (2 * (h - 1)) * (b - r * cos psi))); [|ring]. rewrite <- P. ring.
Qed.
Lemma d_gen a c : double (a + c + 2) (2 * c + 1).
Proof.
  unfold double, mp_func. cbv zeta. replace (2 * (a + c + 2) - (2 * c + 1))%nat with (2 * (a + 1) + 1)%nat by lia. rewrite mod2_odd. replace (2 * (a + 1) + 1 =? 1)%nat with false by (symmetry; apply Nat.eqb_neq; lia).
  replace (a + c + 2 =? 1)%nat with false by (symmetry; apply Nat.eqb_neq; lia). replace (2 * (a + 1) + 1 - 1)%nat with (2 * (a + 1))%nat by lia. rewrite div2_even. cbn [Nat.eqb andb negb].
  destruct (Nat.even a) eqn:Ea.
  - destruct (even_2h a Ea) as [q ->]. rewrite mod2_odd. cbn [Nat.eqb andb]. intros t. rewrite ep_gen, neg_even. ring.
  - destruct (odd_2h a Ea) as [q ->]. replace (2 * q + 1 + 1)%nat with (2 * (q + 1))%nat by lia. rewrite mod2_even. cbn [Nat.eqb andb]. intros x. rewrite ep_gen, neg_odd, sin4_half, delta_psi. replace (2 * (2 * (q + 1)))%nat with (S q * 4)%nat by lia. rewrite Nat.div_mul by lia.
    replace (2 * c + 1 - 1)%nat with (2 * c)%nat by lia. rewrite div2_even. rewrite <- pow32_psi. replace (2 * q + 1 + c + 2 - 1)%nat with (2 * S q + c)%nat by lia. replace (2 * q + 1 + 1)%nat with (2 * S q)%nat by lia. set (p := pow32 _). set (w := re_pow32 _). rewrite <- (pow_edge r (sin (2 * x)) (b - r * cos (2 * x)) (S q) c) by lra. ring.
Qed.
Lemma d_lin k x : erho2 b r (x + / 2 * k) <= 1 -> mp_kappa b r = k -> exists f, mp_func b r 1 1 = Some f /\ f x = edge_pair 1 1 b r (x + / 2 * k).
Proof.
  intros E K. eexists. split; [reflexivity|]. cbv beta zeta. rewrite K. set (t := x + / 2 * k) in *. rewrite edge_pair_lin.
  replace (r² + b² - 2 * b * r * cos t) with (erho2 b r t) by (unfold erho2, Rsqr; ring). unfold edge_integrand. cbv zeta. rewrite edge_z_rho.
  assert (E0 : 0 <= erho2 b r t). { unfold erho2. assert (Q := COS_bound t). assert (A := pow2_ge_0 (b - r)). assert (0 <= 2 * (b * r) * (1 - cos t)) by (apply Rmult_le_pos; [apply Rmult_le_pos; [lra|apply Rmult_le_pos; lra]|lra]). nra. }
  unfold Rleb. destruct (Rle_dec (erho2 b r t) 0) as [L|L].
  - assert (Z : erho2 b r t = 0) by lra. assert (Q : r - b * cos t = 0). { unfold erho2 in Z. assert (S := sin2_cos2 t). unfold Rsqr in S. assert (A : (r - b * cos t) ^ 2 + (b * sin t) ^ 2 = 0). { replace ((r - b * cos t) ^ 2 + (b * sin t) ^ 2) with (r ^ 2 - 2 * b * r * cos t + b ^ 2 * (sin t * sin t + cos t * cos t)) by ring. rewrite S. lra. } apply sumsq_0 in A. tauto. } rewrite Q. ring.
  - apply Rnot_le_lt in L. rewrite Rmax_right by lra. set (w := erho2 b r t) in *. set (z := sqrt (1 - w)). assert (Z0 : 0 <= z) by apply sqrt_pos. assert (Z2 : z * z = 1 - w) by (apply sqrt_sqrt; lra).
    replace w with (1 - z * z) by lra. replace (1 - (1 - z * z)) with (z * z) by ring. assert (z < 1) by nra. field. split; nra.
Qed.
End integrand.
Lemma mp_integral quad b r l nu k k1 : (nu <= 2 * l)%nat -> exact_quad quad -> 0 < b -> 0 < r -> mp_kappa b r = k -> contact b r k k1 -> mp_P quad l nu b r = Ok (RInt (edge_pair l nu b r) 0 k).
Proof.
  intros Hnu HQ Hb Hr K CT. unfold mp_P. unfold Reqb. destruct (Req_EM_T (2 * r) 0); [lra|]. destruct (Req_EM_T (4 * b * r) 0) as [Z|_]; [assert (0 < 4 * b * r) by (apply Rmult_lt_0_compat; lra); lra|].
  assert (K0 := proj1 CT). rewrite K.
  assert (D : double b r l nu -> match mp_func b r l nu with Some f => Ok (quad f (- k / 2) (k / 2)) | None => Ok 0 end = Ok (RInt (edge_pair l nu b r) 0 k)).
  { unfold double. destruct (mp_func b r l nu) as [f|]; intros H; apply (f_equal (@Ok R)).
    - apply HQ. apply sub_double; [lra|apply edge_pair_cont|apply edge_pair_even|intros; apply H].
    - symmetry. now apply rint_0. }
  destruct (gcase_all l nu Hnu) as [i j| |h Hh|h Hh|a c]; [apply D, d_even; assumption| |apply D, d_mu1e; assumption|apply D, d_mu1o; assumption|apply D, d_gen; assumption].
  destruct (mp_func b r 1 1) as [f|] eqn:E; [|discriminate E]. apply (f_equal (@Ok R)). apply HQ, sub_shift; [lra|apply edge_pair_cont|]. intros x Hx.
  destruct (d_lin b r Hb Hr k x) as (f' & E' & H); [apply CT; lra|exact K|]. rewrite E in E'. injection E' as <-. exact H.
Qed.
(** ** the angles *)
Lemma mp_angles b r : 0 <= b -> 0 <= r -> b < 1 + r -> r < 1 + b -> exists k1, contact b r (mp_kappa b r) k1 /\ (if mp_meet b r then / 2 * PI - snd (mp_kappas b r) else PI / 2) = / 2 * PI - k1.
Proof.
  intros Hb Hr H1 H2. destruct (contact_ok b r Hb Hr H1 H2) as (A & k0 & k1 & EK & CT & _ & _ & In & _). exists k1. unfold mp_kappa, mp_meet. unfold Rltb. destruct (Rlt_dec (Rabs (1 - r)) b) as [L1|L1].
  - destruct (Rlt_dec b (1 + r)) as [L2|L2]; [|lra]. cbn [andb]. unfold kappas, Rgtb, Rltb in EK. cbv zeta in EK. destruct (Rlt_dec (Rabs (1 - r)) b); [|lra]. destruct (Rlt_dec b (1 + r)); [|lra]. cbn [andb] in EK. injection EK as EA E0 E1. unfold mp_kappas. cbv zeta. cbn [fst snd]. rewrite E0, E1. split; [|reflexivity].
    replace (k0 - PI / 2 + PI / 2) with k0 by ring. exact CT.
  - cbn [andb]. destruct In as [I1 I2]; [destruct (Rle_dec r 1); [rewrite Rabs_right in L1 by lra; lra|rewrite Rabs_left in L1 by lra; lra]|]. split; [|rewrite I2; field]. replace (PI / 2 + PI / 2) with PI by field. rewrite <- I1. exact CT.
Qed.
(** ** the vector *)
Lemma map_result_ok {A B} (f : A -> result B) (g : A -> B) l : (forall a, In a l -> f a = Ok (g a)) -> map_result f l = Ok (map g l).
Proof. induction l as [|a l IH]; intros H; [reflexivity|]. cbn [map_result map]. rewrite (H a (or_introl eq_refl)), IH; [reflexivity|]. intros a' I. apply H. now right. Qed.
Lemma combine_map {A B C} (f : A -> B) (g : A -> C) l : combine (map f l) (map g l) = map (fun a => (f a, g a)) l.
Proof. induction l as [|a l IH]; [reflexivity|]. cbn [map combine]. now rewrite IH. Qed.
Lemma lnus_in lmax l nu : In (l, nu) (lnus lmax) -> (l <= lmax)%nat /\ (nu <= 2 * l)%nat.
Proof. unfold lnus. intros H. apply in_flat_map in H as (l' & I1 & I2). apply in_seq in I1. apply in_map_iff in I2 as (nu' & E & I2). injection E as <- <-. apply in_seq in I2. lia. Qed.
Lemma map_lnus {A} (F : nat -> nat -> A) lmax : map (fun ln => F (fst ln) (snd ln)) (lnus lmax) = flat_map (fun l => map (F l) (seq 0 (2 * l + 1))) (seq 0 (lmax + 1)).
Proof. unfold lnus. induction (seq 0 (lmax + 1)) as [|l L IH]; [reflexivity|]. cbn [flat_map]. rewrite map_app, IH, map_map. reflexivity. Qed.
Lemma lnus_length lmax : length (lnus lmax) = ((lmax + 1) * (lmax + 1))%nat.
Proof.
  unfold lnus. replace (lmax + 1)%nat with (S lmax) by lia. generalize (S lmax) as n. induction n as [|n IH]; [reflexivity|]. rewrite seq_S, flat_map_app, app_length, IH. cbn [flat_map Nat.add]. rewrite app_length, map_length, seq_length. cbn [length]. lia.
Qed.
Theorem mp_entries quad lmax b r : exact_quad quad -> b <> 0 -> r <> 0 -> Rabs b < 1 + Rabs r -> Rabs r < 1 + Rabs b ->
  exists s, mp_sT quad lmax b r = Ok s /\ length s = ((lmax + 1) * (lmax + 1))%nat /\ forall l nu f, (l <= lmax)%nat -> (nu <= 2 * l)%nat -> green_function l nu f -> nth (l * l + nu) s 0 = flux_around 0 (Rabs b) (Rabs r) f.
Proof.
  intros HQ Nb Nr H1 H2. assert (Hb : 0 < Rabs b) by now apply Rabs_pos_lt. assert (Hr : 0 < Rabs r) by now apply Rabs_pos_lt. unfold mp_sT. cbv zeta. set (b' := Rabs b) in *. set (r' := Rabs r) in *.
  destruct (mp_angles b' r') as (k1 & CT & EL); [lra|lra|lra|lra|]. set (k := mp_kappa b' r') in *.
  unfold mp_p. rewrite (map_result_ok _ (fun ln => RInt (edge_pair (fst ln) (snd ln) b' r') 0 k)).
  2:{ intros [l nu] I. apply lnus_in in I. cbn [fst snd]. apply (mp_integral quad b' r' l nu k k1); tauto || reflexivity. }
  unfold mp_q. cbv zeta. rewrite EL, combine_map, map_map. cbn [fst snd]. eexists. split; [reflexivity|]. split; [rewrite map_length; apply lnus_length|].
  intros l nu f Hl Hnu Hf. rewrite (map_lnus (fun l nu => q_entry (/ 2 * PI - k1) l nu - RInt (edge_pair l nu b' r') 0 k)). rewrite (sol_nth_gen (fun l nu => q_entry (/ 2 * PI - k1) l nu - RInt (edge_pair l nu b' r') 0 k)) by lia.
  assert (V := green_vis l nu b' r' k k1 Hnu (Rlt_le _ _ Hb) (Rlt_le _ _ Hr) CT). apply (vis_ext_in _ _ _ f) in V. { destruct (vis_disk _ _ _ _ V) as [_ ->]. reflexivity. } intros x y Hd H0. now apply green_function_eq.
Qed.
Lemma mp_zero quad lmax b r : b = 0 \/ r = 0 -> mp_sT quad lmax b r = Err ZeroDivisionError.
Proof.
  intros H. unfold mp_sT, mp_p. cbv zeta. unfold lnus. replace (lmax + 1)%nat with (S lmax) by lia. cbn [seq flat_map map app Nat.mul Nat.add map_result fst snd]. assert (E : mp_P quad 0 0 (Rabs b) (Rabs r) = Err ZeroDivisionError); [|now rewrite E].
  unfold mp_P, Reqb. destruct (Req_EM_T (2 * Rabs r) 0) as [|N]; [reflexivity|]. destruct (Req_EM_T (4 * Rabs b * Rabs r) 0) as [|N2]; [reflexivity|]. exfalso. destruct H as [-> | ->]; rewrite Rabs_R0 in *; [apply N2|apply N]; ring.
Qed.
