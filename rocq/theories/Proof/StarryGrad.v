(** Gradients of occulted spherical-harmonic light curves. *)
From Coq Require Import Reals List Bool Arith ZArith Lia Lra Psatz.
From Coquelicot Require Import Hierarchy Derive Continuity Rbar Rcomplements ElemFct AutoDerive.
From Verif Require Import Base.RealAux Model.LimbDark Model.Poly Model.Solution Model.SolutionVector Model.RvMap Model.Surface Model.AutoDiff Model.LightCurveGrad Model.TransitGrad Model.StarryGrad.
From Verif Require Import Spec.LimbDarkSpec Spec.OccultSpec Spec.AutoDiffSpec Spec.StarryGradSpec.
From Verif Require Import Proof.AutoDiff Proof.Occult Proof.LightCurveGrad Proof.LightCurveDeriv Proof.LightCurveTangent Proof.LightCurveGradFacts Proof.TransitGrad.
Import ListNotations.
Local Open Scope R_scope.

Lemma fin_pown x v n : fin x v -> fin (dpown x n) (v ^ n). Proof. apply (fin_lift1 (fun v => v ^ n)). Qed.
Lemma tracks_pown f s x n : tracks f s x -> tracks (fun z => f z ^ n) s (dpown x n).
Proof.
  intros H. destruct H as (t & -> & H). apply (tracks_chain (fun v => v ^ n) (INR n * f s ^ (n - 1))); [exact H| |reflexivity].
  replace (n - 1)%nat with (pred n) by lia. apply is_derive_Reals. apply derivable_pt_lim_pow.
Qed.
Lemma pow32_half x : 0 <= x -> pow32 x = fpow x 1.5.
Proof.
  intros H. replace 1.5 with (0.5 * INR 3) by (cbn; lra). rewrite fpow_half_nat by (try assumption; lia). unfold pow32. cbn [pow].
  rewrite <- (sqrt_sqrt x H) at 1. ring.
Qed.
Lemma half3 : 1.5 = 0.5 * INR 3. Proof. cbn. lra. Qed.

Ltac fin2 := repeat first [apply fin_pown | fin1].
Ltac trk2 := repeat first [apply tracks_pown | trk1].

(** ** finiteness *)
Section Fin.
Variable eps : R.
Hypothesis He : 0 < eps.
Lemma fin_sol_kappas x y b r : fin x b -> fin y r -> 0 <= b -> 0 <= r -> ~ (b = 0 /\ r = 1) -> ~ (b = 1 /\ r = 0) ->
  fin (fst (sol_kappas_d eps x y)) (fst (sol_kappas b r)) /\ fin (snd (sol_kappas_d eps x y)) (snd (sol_kappas b r)).
Proof.
  intros Hx Hy Hb Hr H1 H2. pose proof (fin_kappas eps x y b r He Hx Hy Hb Hr H1 H2) as HK. unfold kappas_d, kappas in HK. unfold sol_kappas_d, sol_kappas. cbv zeta in *.
  cbn [fst snd] in *. split; [exact (proj1 (proj2 HK))|exact (proj2 (proj2 HK))].
Qed.
Lemma fin_q_low x lam v : fin x lam -> fin (q_low_d x v) (q_low lam v).
Proof.
  intros H. enough (G : fin (q_low_d x v) (q_low lam v) /\ fin (q_low_d x (S v)) (q_low lam (S v))) by apply G.
  induction v as [|v [IH1 IH2]].
  - split; cbn [q_low q_low_d]; fin.
  - split; [exact IH2|]. cbn [q_low q_low_d]. apply fin_div; [fin2|fin|]. apply not_0_INR. lia.
Qed.
Lemma fin_q_get x lam u v : fin x lam -> fin (q_get_d x u v) (q_get lam u v).
Proof.
  intros H. enough (G : fin (q_get_d x u v) (q_get lam u v) /\ fin (q_get_d x (S u) v) (q_get lam (S u) v)) by apply G.
  induction u as [|u [IH1 IH2]].
  - split; cbn [q_get q_get_d]; now apply fin_q_low.
  - split; [exact IH2|]. cbn [q_get q_get_d]. apply fin_div; [fin2|fin|]. apply not_0_INR. lia.
Qed.
Lemma fin_q_entry x lam l nu : fin x lam -> fin (q_entry_d x l nu) (q_entry lam l nu).
Proof.
  intros H. unfold q_entry_d, q_entry. destruct ((l =? 1) && (nu =? 1))%nat; [apply fin_div; [fin|fin|lra]|]. destruct (_ && _)%bool; [now apply fin_q_get|fin].
Qed.
Section Entry.
Variables (X Y K : D) (b r k : R).
Hypotheses (HX : fin X b) (HY : fin Y r) (HK : fin K k).
Lemma fin_pi_factor : fin (pi_factor_d eps X Y) (pi_factor eps b r) /\ pi_k2cond_d eps X Y = pi_k2cond eps b r /\ pi_factor eps b r <> 0.
Proof. exact (fin_factor eps He X Y b r HX HY). Qed.
Lemma fin_rcond : pi_rcond_d eps Y = pi_rcond eps r.
Proof. unfold pi_rcond_d, pi_rcond. now rewrite (fin_val _ _ HY). Qed.
Lemma fin_s2 t : fin (pi_s2_d K t) (pi_s2 k t).
Proof. unfold pi_s2_d, pi_s2, pi_phi_d, pi_phi. fin. Qed.
Lemma fin_a1 s v : fin s v -> fin (pi_a1_d s) (pi_a1 v).
Proof. intros. unfold pi_a1_d, pi_a1. fin. Qed.
Lemma fin_a4 s v : fin s v -> fin (pi_a4_d s) (pi_a4 v).
Proof. intros. unfold pi_a4_d, pi_a4. fin. Qed.
Lemma fin_a2 s v : fin s v -> fin (pi_a2_d eps X Y s) (pi_a2 eps b r v).
Proof.
  intros. unfold pi_a2_d, pi_a2, pi_delta_d, pi_delta. rewrite fin_rcond. apply fin_where; [fin|]. apply fin_add; [|assumption]. apply fin_div; [fin| |].
  - apply fin_mul; [fin|]. apply fin_where; fin.
  - destruct (pi_rcond eps r) eqn:E; [lra|]. unfold pi_rcond in E. apply Rltb_false in E. lra.
Qed.
Lemma fin_f0 s v : fin s v -> fin (pi_f0_d eps X Y s) (pi_f0 eps b r v).
Proof.
  intros Hs. destruct fin_pi_factor as (Hf & Ec & Nf). unfold pi_f0_d, pi_f0, pi_k2_d, pi_k2. rewrite Ec. rewrite pow32_half by apply Rmax_l. apply fin_pow; [|apply Rmax_l|lra].
  apply fin_max; [fin|]. apply fin_where; [fin|]. apply fin_mul; [exact Hf|]. apply fin_sub; [|exact Hs]. apply fin_max; [fin|]. apply fin_div; [fin|exact Hf|exact Nf].
Qed.
Lemma fin_lin t : fin (pi_lin_d eps X Y K t) (pi_lin eps b r k t).
Proof.
  unfold pi_lin_d, pi_lin. cbv zeta. set (c := dcos _). set (c' := cos _). assert (Hc : fin c c') by (unfold c, c'; fin).
  set (o := dsub (dadd (dsq Y) (dsq X)) _). set (o' := r² + b² - 2 * b * r * c'). assert (Ho : fin o o') by (unfold o, o'; fin). rewrite (fin_val _ _ Ho).
  assert (H1 : fin (dwhere (Rltb o' (10 * eps)) (cst 1) o) (if Rltb o' (10 * eps) then 1 else o')) by (apply fin_where; fin).
  apply fin_where; [fin|]. apply fin_mul; [fin|]. apply fin_div.
  - apply fin_mul; [fin|]. apply fin_sub; [fin|]. apply fin_mul; [fin|]. apply fin_sqrt; [exact He| |apply Rmax_l]. fin.
  - fin.
  - destruct (Rltb o' (10 * eps)) eqn:E; [lra|]. apply Rltb_false in E. lra.
Qed.
Lemma fin_p_sum quad (f : R -> D) (g : R -> R) : (forall t, fin (f t) (g t)) -> fin (p_sum_d K quad f) (p_sum k quad g).
Proof. intros H. unfold p_sum_d, p_sum. apply fin_mul; [fin|]. apply (fin_sum (A := R * R)). intros [t w] _. cbn [fst snd]. apply fin_mul; [apply H|fin]. Qed.
Ltac fin3 := repeat first [apply fin_a1 | apply fin_a2 | apply fin_a4 | apply fin_f0 | apply fin_s2 | apply fin_pown | fin1].
Lemma fin_pint low high l nu : fin (pint_entry_d eps low high X Y K l nu) (pint_entry eps low high b r k l nu).
Proof.
  unfold pint_entry_d, pint_entry. cbv zeta.
  destruct (_ && _)%bool; [apply fin_p_sum; intros; apply fin_lin|]. destruct (_ && _)%bool; [apply fin_p_sum; intros; fin3|].
  destruct (_ && _)%bool; [apply fin_p_sum; intros; fin3|]. destruct (_ =? 1)%nat; [apply fin_p_sum; intros; fin3|].
  destruct (_ && _)%bool; [apply fin_p_sum; intros; fin3|fin].
Qed.
End Entry.
Theorem fin_sol_entry low high x y b r l nu : fin x b -> fin y r -> ~ (Rabs b = 0 /\ Rabs r = 1) -> ~ (Rabs b = 1 /\ Rabs r = 0) ->
  fin (sol_entry_d eps low high x y l nu) (sol_entry eps low high b r l nu).
Proof.
  intros Hx Hy N1 N2. unfold sol_entry_d, sol_entry. assert (HX : fin (dabs x) (Rabs b)) by now apply fin_abs. assert (HY : fin (dabs y) (Rabs r)) by now apply fin_abs.
  destruct (fin_sol_kappas (dabs x) (dabs y) (Rabs b) (Rabs r) HX HY (Rabs_pos _) (Rabs_pos _) N1 N2) as [F0 F1].
  destruct (sol_kappas_d eps (dabs x) (dabs y)) as [K0 K1]. destruct (sol_kappas (Rabs b) (Rabs r)) as [k0 k1]. cbn [fst snd] in F0, F1.
  apply fin_sub; [apply fin_q_entry; fin|now apply fin_pint].
Qed.
End Fin.

(** ** the tangent is the derivative *)
Lemma tracks_q_low f s x v : tracks f s x -> tracks (fun z => q_low (f z) v) s (q_low_d x v).
Proof.
  intros H. enough (G : tracks (fun z => q_low (f z) v) s (q_low_d x v) /\ tracks (fun z => q_low (f z) (S v)) s (q_low_d x (S v))) by apply G.
  induction v as [|v [IH1 IH2]].
  - split; cbn [q_low q_low_d]; trk.
  - split; [exact IH2|]. cbn [q_low q_low_d]. apply tracks_div; [trk2|trk|]. apply not_0_INR. lia.
Qed.
Lemma tracks_q_get f s x u v : tracks f s x -> tracks (fun z => q_get (f z) u v) s (q_get_d x u v).
Proof.
  intros H. enough (G : tracks (fun z => q_get (f z) u v) s (q_get_d x u v) /\ tracks (fun z => q_get (f z) (S u) v) s (q_get_d x (S u) v)) by apply G.
  induction u as [|u [IH1 IH2]].
  - split; cbn [q_get q_get_d]; now apply tracks_q_low.
  - split; [exact IH2|]. cbn [q_get q_get_d]. apply tracks_div; [trk2|trk|]. apply not_0_INR. lia.
Qed.
Lemma tracks_q_entry f s x l nu : tracks f s x -> tracks (fun z => q_entry (f z) l nu) s (q_entry_d x l nu).
Proof.
  intros H. unfold q_entry_d, q_entry. destruct ((l =? 1) && (nu =? 1))%nat; [apply tracks_div; [trk|trk|lra]|]. destruct (_ && _)%bool; [now apply tracks_q_get|trk].
Qed.
Section Deriv.
Variable eps : R.
Hypothesis He : 0 < eps.
Variables (s : R) (B T K : R -> R) (X Y Z : D).
Hypotheses (HX : tracks B s X) (HY : tracks T s Y) (HZ : tracks K s Z) (HB : 0 < B s) (HT : 0 < T s) (Hd : Rabs (B s - T s) < 1).
Hypotheses (N4 : 4 * B s * T s <> 10 * eps) (NR : T s <> 10 * eps).
Let FX := tracks_fin _ _ _ HX.
Let FY := tracks_fin _ _ _ HY.
Let FZ := tracks_fin _ _ _ HZ.
Lemma tracks_pi_factor : tracks (fun z => pi_factor eps (B z) (T z)) s (pi_factor_d eps X Y).
Proof. exact (tracks_factor eps s B T X Y HX HY N4). Qed.
Lemma stable_pi_k2 : stable (fun z => pi_k2cond eps (B z) (T z)) s.
Proof. exact (stable_k2 eps s B T X Y HX HY N4). Qed.
Lemma stable_rcond : stable (fun z => pi_rcond eps (T z)) s.
Proof. apply (stable_ltb T (fun _ => 10 * eps)); [exact (tracks_cont _ _ _ HY)|apply continuous_const|exact NR]. Qed.
Lemma tracks_s2 t : tracks (fun z => pi_s2 (K z) t) s (pi_s2_d Z t).
Proof. unfold pi_s2_d, pi_s2, pi_phi_d, pi_phi. trk. Qed.
Lemma tracks_a1 f x : tracks f s x -> tracks (fun z => pi_a1 (f z)) s (pi_a1_d x).
Proof. intros. unfold pi_a1_d, pi_a1. trk. Qed.
Lemma tracks_a4 f x : tracks f s x -> tracks (fun z => pi_a4 (f z)) s (pi_a4_d x).
Proof. intros. unfold pi_a4_d, pi_a4. trk. Qed.
Lemma tracks_a2 f x : tracks f s x -> tracks (fun z => pi_a2 eps (B z) (T z) (f z)) s (pi_a2_d eps X Y x).
Proof.
  intros Hf. pose proof (fin_a2 eps He X Y _ _ FX FY x _ (tracks_fin _ _ _ Hf)) as Fa. unfold pi_a2_d, pi_a2, pi_delta_d, pi_delta in *. rewrite (fin_rcond eps Y _ FY) in *.
  assert (T1 : tracks (fun z => if pi_rcond eps (T z) then 1 else T z) s (dwhere (pi_rcond eps (T s)) (cst 1) Y)).
  { apply (tracks_where (fun z => pi_rcond eps (T z)) (fun _ => 1) T s (cst 1) Y 1 _ stable_rcond (fin_cst 1) FY); [intros _; apply tracks_cst|intros _; exact HY]. }
  assert (T2 : tracks (fun z => (B z - T z) / (2 * (if pi_rcond eps (T z) then 1 else T z)) + f z) s (dadd (ddiv (dsub X Y) (dmul (cst 2) (dwhere (pi_rcond eps (T s)) (cst 1) Y))) x)).
  { apply tracks_add; [|exact Hf]. apply (tracks_div (fun z => B z - T z) (fun z => 2 * (if pi_rcond eps (T z) then 1 else T z))); [trk| |].
    - apply tracks_mul; [trk|exact T1].
    - cbv beta. destruct (pi_rcond eps (T s)); lra. }
  apply (tracks_where (fun z => pi_rcond eps (T z)) (fun _ => 0) _ s (cst 0) _ 0 _ stable_rcond (fin_cst 0) (tracks_fin _ _ _ T2)); [intros _; apply tracks_cst|intros _; exact T2].
Qed.
Lemma tracks_f0 f x : tracks f s x -> tracks (fun z => pi_f0 eps (B z) (T z) (f z)) s (pi_f0_d eps X Y x).
Proof.
  intros Hf. destruct (fin_pi_factor eps He X Y _ _ FX FY) as (Ff & Ec & Nf). unfold pi_f0_d. rewrite Ec.
  assert (Pf : 0 < pi_factor eps (B s) (T s)).
  { unfold pi_factor, pi_factor0. destruct (pi_k2cond eps (B s) (T s)); [lra|]. assert (0 < B s * T s) by now apply Rmult_lt_0_compat. lra. }
  assert (Tk : tracks (fun z => pi_k2 eps (B z) (T z)) s (pi_k2_d eps X Y)).
  { unfold pi_k2_d, pi_k2. apply (tracks_max0 (fun z => (1 - (T z)² - (B z)² + 2 * B z * T z) / pi_factor eps (B z) (T z))).
    - apply tracks_div; [trk|exact tracks_pi_factor|exact Nf].
    - apply Rdiv_lt_0_compat; [|exact Pf]. destruct (Rabs_def2 _ _ Hd). unfold Rsqr. nra. }
  assert (T1 : tracks (fun z => 1 - (T z)²) s (dsub (cst 1) (dsq Y))) by trk.
  assert (T2 : tracks (fun z => pi_factor eps (B z) (T z) * (pi_k2 eps (B z) (T z) - f z)) s (dmul (pi_factor_d eps X Y) (dsub (pi_k2_d eps X Y) x))).
  { apply tracks_mul; [exact tracks_pi_factor|]. now apply tracks_sub. }
  apply (tracks_ext' (fun z => fpow (Rmax 0 (if pi_k2cond eps (B z) (T z) then 1 - (T z)² else pi_factor eps (B z) (T z) * (pi_k2 eps (B z) (T z) - f z))) (0.5 * INR 3))).
  { intros z. rewrite <- half3. unfold pi_f0. now rewrite pow32_half by apply Rmax_l. }
  rewrite half3. apply (tracks_pow (fun z => if pi_k2cond eps (B z) (T z) then 1 - (T z)² else pi_factor eps (B z) (T z) * (pi_k2 eps (B z) (T z) - f z))); [lia|].
  apply (tracks_where (fun z => pi_k2cond eps (B z) (T z)) _ _ s _ _ _ _ stable_pi_k2 (tracks_fin _ _ _ T1) (tracks_fin _ _ _ T2)); intros _; assumption.
Qed.
Lemma tracks_lin t : let d := edge_rho2 (B s) (T s) (node_at 0 (K s) t) in d <> 10 * eps -> 10 * eps <= 1 - d ->
  tracks (fun z => pi_lin eps (B z) (T z) (K z) t) s (pi_lin_d eps X Y Z t).
Proof.
  cbv zeta. intros N1 N2. pose proof (fin_lin eps He X Y Z _ _ _ FX FY FZ t) as FF. unfold pi_lin_d, pi_lin in *. cbv zeta in *.
  set (c := dcos (dadd (dmul (dmul (cst 2) (dmul (cst (/ 4)) Z)) (cst t)) (dmul (cst (/ 2)) Z))) in *. set (c' := fun z => cos (2 * (/ 4 * K z) * t + / 2 * K z)).
  assert (Tc : tracks c' s c) by (unfold c', c; trk).
  set (o := dsub (dadd (dsq Y) (dsq X)) (dmul (dmul (dmul (cst 2) X) Y) c)) in *. set (o' := fun z => (T z)² + (B z)² - 2 * B z * T z * c' z).
  assert (To : tracks o' s o) by (unfold o', o; trk). pose proof (tracks_fin _ _ _ To) as Fo. rewrite (fin_val _ _ Fo) in *.
  assert (Eo : o' s = edge_rho2 (B s) (T s) (node_at 0 (K s) t)).
  { unfold o', edge_rho2, c', node_at, Rsqr. replace (2 * (/ 4 * K s) * t + / 2 * K s) with ((K s - 0) / 2 * t + (0 + K s) / 2) by lra. ring. }
  rewrite <- Eo in N1, N2.
  set (q := fun z => Rltb (o' z) (10 * eps)). change (Rltb (o' s) (10 * eps)) with (q s) in *.
  assert (Sq : stable q s) by (apply (stable_ltb o' (fun _ => 10 * eps)); [exact (tracks_cont _ _ _ To)|apply continuous_const|exact N1]).
  assert (T1 : tracks (fun z => if q z then 1 else o' z) s (dwhere (q s) (cst 1) o)).
  { apply (tracks_where q (fun _ => 1) o' s (cst 1) o 1 _ Sq (fin_cst 1) Fo); [intros _; apply tracks_cst|intros _; exact To]. }
  set (w := dwhere (q s) (cst 1) o) in *.
  assert (FR : exists v, fin (dmul (cst 2) (ddiv (dmul (dmul (dmul (cst 2) Y) (dsub Y (dmul X c))) (dsub (cst 1) (dmul (dmax (cst 0) (dsub (cst 1) w)) (dzero_safe_sqrt eps (dmax (cst 0) (dsub (cst 1) w)))))) (dmul (cst 3) w))) v).
  { destruct FF as (t0 & FF). destruct (dmul (cst 2) (ddiv _ _)) as [[v v']|]; [exists v; now exists v'|]. rewrite where_none in FF. discriminate. }
  destruct FR as (v & FR).
  change (tracks (fun z => if q z then 0 else 2 * (2 * T z * (T z - B z * c' z) * (1 - Rmax 0 (1 - (if q z then 1 else o' z)) * zero_safe_sqrt (Rmax 0 (1 - (if q z then 1 else o' z)))) / (3 * (if q z then 1 else o' z)))) s
    (dwhere (q s) (cst 0) (dmul (cst 2) (ddiv (dmul (dmul (dmul (cst 2) Y) (dsub Y (dmul X c))) (dsub (cst 1) (dmul (dmax (cst 0) (dsub (cst 1) w)) (dzero_safe_sqrt eps (dmax (cst 0) (dsub (cst 1) w)))))) (dmul (cst 3) w))))).
  apply (tracks_where q (fun _ => 0) _ s (cst 0) _ 0 v Sq (fin_cst 0) FR); [intros _; apply tracks_cst|]. intros E.
  assert (Tz : tracks (fun z => Rmax 0 (1 - (if q z then 1 else o' z))) s (dmax (cst 0) (dsub (cst 1) w))).
  { apply (tracks_max0 (fun z => 1 - (if q z then 1 else o' z))); [apply tracks_sub; [trk|exact T1]|]. rewrite E. lra. }
  assert (E1 : Rmax 0 (1 - (if q s then 1 else o' s)) = 1 - o' s) by (rewrite E; apply Rmax_right; lra).
  assert (Ts : tracks (fun z => zero_safe_sqrt (Rmax 0 (1 - (if q z then 1 else o' z)))) s (dzero_safe_sqrt eps (dmax (cst 0) (dsub (cst 1) w)))).
  { apply (tracks_sqrt eps (fun z => Rmax 0 (1 - (if q z then 1 else o' z)))); [exact Tz| |]; cbv beta; rewrite E1; lra. }
  apply tracks_mul; [trk|]. apply tracks_div.
  - apply tracks_mul; [trk|]. apply tracks_sub; [trk|]. now apply tracks_mul.
  - apply tracks_mul; [trk|exact T1].
  - rewrite E. unfold q in E. apply Rltb_false in E. lra.
Qed.
Lemma tracks_p_sum quad (f : R -> R -> R) (d : R -> D) : (forall t w, In (t, w) quad -> tracks (fun z => f z t) s (d t)) -> tracks (fun z => p_sum (K z) quad (f z)) s (p_sum_d Z quad d).
Proof.
  intros H. unfold p_sum_d, p_sum. apply tracks_mul; [trk|]. apply (tracks_sum (A := R * R) (fun rw z => f z (fst rw) * snd rw)). intros [t w] Hin. cbn [fst snd]. apply tracks_mul; [now apply (H t w)|trk].
Qed.
Ltac trk3 := repeat first [apply tracks_a1 | apply tracks_a2 | apply tracks_a4 | apply tracks_f0 | apply tracks_s2 | apply tracks_pown | trk1].
Lemma tracks_pint low high l nu :
  (forall x w, In (x, w) high -> let d := edge_rho2 (B s) (T s) (node_at 0 (K s) x) in d <> 10 * eps /\ 10 * eps <= 1 - d) ->
  tracks (fun z => pint_entry eps low high (B z) (T z) (K z) l nu) s (pint_entry_d eps low high X Y Z l nu).
Proof.
  intros HQ. unfold pint_entry_d, pint_entry. cbv zeta.
  destruct (_ && _)%bool. { apply (tracks_p_sum high (fun z => pi_lin eps (B z) (T z) (K z))). intros t w Hin. destruct (HQ t w Hin). now apply tracks_lin. }
  destruct (_ && _)%bool.
  { apply (tracks_p_sum low (fun z t => 2 * (2 * (2 * T z) ^ (l + 2) * pi_a1 (pi_s2 (K z) t) ^ ((2 * l - nu + 4) / 4) * pi_a2 eps (B z) (T z) (pi_s2 (K z) t) ^ (nu / 2)))). intros t w _. trk3. }
  destruct (_ && _)%bool.
  { apply (tracks_p_sum high (fun z t => 2 * ((2 * T z) ^ (l - 1) * pi_f0 eps (B z) (T z) (pi_s2 (K z) t) * pi_a1 (pi_s2 (K z) t) ^ (l / 2 - 1) * pi_a4 (pi_s2 (K z) t)))). intros t w _. trk3. }
  destruct (_ =? 1)%nat.
  { apply (tracks_p_sum high (fun z t => 2 * ((2 * T z) ^ (l - 1) * pi_f0 eps (B z) (T z) (pi_s2 (K z) t) * pi_a1 (pi_s2 (K z) t) ^ ((l - 3) / 2) * pi_a2 eps (B z) (T z) (pi_s2 (K z) t) * pi_a4 (pi_s2 (K z) t)))). intros t w _. trk3. }
  destruct (_ && _)%bool; [|trk].
  apply (tracks_p_sum high (fun z t => 2 * (2 * ((2 * T z) ^ (l - 1) * pi_f0 eps (B z) (T z) (pi_s2 (K z) t)) * pi_a1 (pi_s2 (K z) t) ^ ((2 * l - nu - 1) / 4) * pi_a2 eps (B z) (T z) (pi_s2 (K z) t) ^ ((nu - 1) / 2)))). intros t w _. trk3.
Qed.
End Deriv.

(** ** outside of an occultation and in total eclipse *)
Lemma cst_of_tracks v s x : tracks (fun _ => v) s x -> x = cst v.
Proof.
  intros (t & -> & H). unfold cst. do 2 f_equal. apply is_derive_unique in H. rewrite <- H. rewrite Derive_const. reflexivity.
Qed.
Lemma q_entry_cst v l nu : q_entry_d (cst v) l nu = cst (q_entry v l nu).
Proof. apply (cst_of_tracks _ 0). apply (tracks_q_entry (fun _ => v)). apply tracks_cst. Qed.
Lemma mul_cst0 x v : fin x v -> dmul (cst 0) x = cst 0.
Proof. intros (t & ->). unfold dmul, cst, lift2. do 2 f_equal; ring. Qed.
Lemma p_sum_cst0 quad f g : (forall t, fin (f t) (g t)) -> p_sum_d (cst 0) quad f = cst 0.
Proof.
  intros H. unfold p_sum_d. replace (dmul (cst (/ 4)) (cst 0)) with (cst 0) by (unfold dmul, cst, lift2; do 2 f_equal; ring).
  apply (mul_cst0 _ (Rsum (map (fun rw => g (fst rw) * snd rw) quad))). apply (fin_sum (A := R * R)). intros [t w] _. cbn [fst snd]. apply fin_mul; [apply H|fin].
Qed.
Lemma p_sum_0 quad f : p_sum 0 quad f = 0.
Proof. unfold p_sum. ring. Qed.
Lemma pint_0 eps low high b r l nu : pint_entry eps low high b r 0 l nu = 0.
Proof. unfold pint_entry. cbv zeta. rewrite !p_sum_0. repeat destruct (_ && _)%bool; try reflexivity; destruct (_ =? 1)%nat; reflexivity. Qed.
Lemma pint_cst0 eps low high X Y b r l nu : 0 < eps -> fin X b -> fin Y r -> pint_entry_d eps low high X Y (cst 0) l nu = cst 0.
Proof.
  intros He HX HY. unfold pint_entry_d. cbv zeta. set (N := fin_cst 0).
  Ltac fin4 He HX HY N := repeat first [apply fin_a1 | eapply (fin_a2 _ He _ _ _ _ HX HY) | apply fin_a4 | eapply (fin_f0 _ He _ _ _ _ HX HY) | apply (fin_s2 _ _ N) | apply fin_pown | fin1].
  destruct (_ && _)%bool; [eapply p_sum_cst0; intros; apply (fin_lin eps He X Y (cst 0) b r 0); assumption|].
  destruct (_ && _)%bool; [eapply p_sum_cst0; intros; fin4 He HX HY N|].
  destruct (_ && _)%bool; [eapply p_sum_cst0; intros; fin4 He HX HY N|].
  destruct (_ =? 1)%nat; [eapply p_sum_cst0; intros; fin4 He HX HY N|].
  destruct (_ && _)%bool; [eapply p_sum_cst0; intros; fin4 He HX HY N|reflexivity].
Qed.
(** the angles *)
Lemma outside_pcond B T : 0 <= B -> 0 <= T -> 1 + T <= B \/ 1 + B <= T -> Rgtb B (Rabs (1 - T)) && Rltb B (1 + T) = false.
Proof.
  intros PB PT Ho. apply andb_false_iff. destruct Ho as [Ho|Ho]; [right; apply Rltb_false; lra|left; apply Rltb_false]. rewrite Rabs_left1 by lra. lra.
Qed.
Lemma outside_angles B T : 0 <= B -> 0 <= T -> ~ (B = 0 /\ T = 1) -> ~ (B = 1 /\ T = 0) -> 1 + T <= B \/ 1 + B <= T ->
  0 < B² + (T - 1) * (T + 1) /\ (1 + B <= T -> B² - (T - 1) * (T + 1) < 0) /\ (1 + T <= B -> 0 < B² - (T - 1) * (T + 1)).
Proof.
  intros PB PT N1 N2 Ho. unfold Rsqr. split; [|split].
  - destruct Ho as [Ho|Ho].
    + assert ((1 + T) * (1 + T) <= B * B) by (apply Rmult_le_compat; lra). destruct (Rlt_dec 0 T); [nra|]. assert (T = 0) by lra. subst T. destruct (Req_EM_T B 1); [now contradiction N2|]. nra.
    + assert ((1 + B) * (1 + B) <= T * T) by (apply Rmult_le_compat; lra). destruct (Rlt_dec 0 B); [nra|]. assert (B = 0) by lra. subst B. destruct (Req_EM_T T 1); [now contradiction N1|]. nra.
  - intros H. assert ((1 + B) * (1 + B) <= T * T) by (apply Rmult_le_compat; lra). destruct (Rlt_dec 0 B); [nra|]. assert (B = 0) by lra. subst B. destruct (Req_EM_T T 1); [now contradiction N1|]. nra.
  - intros H. assert ((1 + T) * (1 + T) <= B * B) by (apply Rmult_le_compat; lra). nra.
Qed.
Definition outside_lam (B T : R) : R := if Rleb (1 + B) T then - (PI / 2) else PI / 2.
Lemma outside_kappas B T : 0 <= B -> 0 <= T -> ~ (B = 0 /\ T = 1) -> ~ (B = 1 /\ T = 0) -> 1 + T <= B \/ 1 + B <= T ->
  sol_kappas B T = (0, if Rleb (1 + B) T then PI else 0).
Proof.
  intros PB PT N1 N2 Ho. destruct (outside_angles B T PB PT N1 N2 Ho) as (A & A1 & A2). unfold sol_kappas. cbv zeta. rewrite outside_pcond by assumption. f_equal.
  - now apply atan2_0_pos.
  - destruct (Rleb (1 + B) T) eqn:E.
    + apply Rleb_true in E. apply atan2_0_neg. now apply A1.
    + apply Rleb_false in E. apply atan2_0_pos. apply A2. lra.
Qed.
Lemma outside_kappas_d eps X Y B T : 0 < eps -> fin X B -> fin Y T -> 0 <= B -> 0 <= T -> ~ (B = 0 /\ T = 1) -> ~ (B = 1 /\ T = 0) -> 1 + T <= B \/ 1 + B <= T ->
  sol_kappas_d eps X Y = (cst 0, cst (if Rleb (1 + B) T then PI else 0)).
Proof.
  intros He HX HY PB PT N1 N2 Ho. pose proof (outside_kappas B T PB PT N1 N2 Ho) as EK. destruct (outside_angles B T PB PT N1 N2 Ho) as (A & A1 & A2). unfold sol_kappas in EK. unfold sol_kappas_d. cbv zeta in *.
  rewrite (fin_val _ _ HX), (fin_val _ _ HY), outside_pcond in * by assumption.
  assert (Fk : fin (kite_area_d eps Y (dwhere false X (cst 1)) (cst 1)) (kite_area T 1 1)) by (apply fin_kite; [exact He|exact HY|apply (fin_where false _ _ B 1 HX (fin_cst 1))|apply fin_cst]).
  destruct Fk as (t & ->). cbn [dwhere cst]. fold (cst 0). injection EK as E0 E1. f_equal.
  - transitivity (cst (atan2 0 (B² + (T - 1) * (T + 1)))); [|now rewrite E0]. apply atan2_cst_tangent; [fin|lra].
  - transitivity (cst (atan2 0 (B² - (T - 1) * (T + 1)))); [|now rewrite E1]. apply atan2_cst_tangent; [fin|]. destruct (Rle_dec (1 + B) T) as [G|G]; [specialize (A1 G); lra|]. destruct Ho as [Ho|Ho]; [specialize (A2 Ho); lra|lra].
Qed.
Lemma outside_entry eps low high x y b r l nu : 0 < eps -> fin x b -> fin y r -> ~ (Rabs b = 0 /\ Rabs r = 1) -> ~ (Rabs b = 1 /\ Rabs r = 0) ->
  1 + Rabs r <= Rabs b \/ 1 + Rabs b <= Rabs r ->
  sol_entry_d eps low high x y l nu = cst (sol_entry eps low high b r l nu) /\ sol_entry eps low high b r l nu = q_entry (outside_lam (Rabs b) (Rabs r)) l nu.
Proof.
  intros He Hx Hy N1 N2 Ho. assert (HX : fin (dabs x) (Rabs b)) by now apply fin_abs. assert (HY : fin (dabs y) (Rabs r)) by now apply fin_abs.
  unfold sol_entry_d, sol_entry. rewrite (outside_kappas_d eps (dabs x) (dabs y) (Rabs b) (Rabs r)) by (try assumption; apply Rabs_pos). rewrite outside_kappas by (try assumption; apply Rabs_pos).
  rewrite pint_0, (pint_cst0 eps low high _ _ (Rabs b) (Rabs r)) by assumption.
  assert (EL : / 2 * PI - (if Rleb (1 + Rabs b) (Rabs r) then PI else 0) = outside_lam (Rabs b) (Rabs r)) by (unfold outside_lam; destruct (Rleb _ _); lra).
  replace (dsub (cst (/ 2 * PI)) (cst (if Rleb (1 + Rabs b) (Rabs r) then PI else 0))) with (cst (outside_lam (Rabs b) (Rabs r))) by (rewrite <- EL; unfold dsub, cst, lift2; do 2 f_equal; ring).
  rewrite EL, q_entry_cst. split; [|ring]. unfold dsub, cst, lift2. do 2 f_equal. ring.
Qed.
Lemma q_low_eclipse v : q_low (- (PI / 2)) v = 0.
Proof.
  enough (G : q_low (- (PI / 2)) v = 0 /\ q_low (- (PI / 2)) (S v) = 0) by apply G. assert (C : cos (- (PI / 2)) = 0) by (rewrite cos_neg; apply cos_PI2).
  induction v as [|v [IH1 IH2]]; split; [cbn [q_low]; lra|cbn [q_low]; rewrite C; lra|exact IH2|].
  cbn [q_low]. rewrite IH1, C, pow_1. unfold Rdiv. ring.
Qed.
Lemma q_get_eclipse u v : q_get (- (PI / 2)) u v = 0.
Proof.
  enough (G : q_get (- (PI / 2)) u v = 0 /\ q_get (- (PI / 2)) (S u) v = 0) by apply G. assert (C : cos (- (PI / 2)) = 0) by (rewrite cos_neg; apply cos_PI2).
  induction u as [|u [IH1 IH2]]; split; try (cbn [q_get]; now apply q_low_eclipse); [exact IH2|].
  cbn [q_get]. rewrite IH1, C, pow_i by lia. unfold Rdiv. ring.
Qed.
Lemma q_entry_eclipse l nu : q_entry (- (PI / 2)) l nu = 0.
Proof. unfold q_entry. destruct (_ && _)%bool; [lra|]. destruct (_ && _)%bool; [apply q_get_eclipse|reflexivity]. Qed.

(** ** assembly *)
Theorem tracks_sol_entry eps low high b r s x y l nu : 0 < eps -> tracks b s x -> tracks r s y -> starry_regular_point eps high (b s) (r s) ->
  tracks (fun z => sol_entry eps low high (b z) (r z) l nu) s (sol_entry_d eps low high x y l nu).
Proof.
  intros He Hb Hr (Nb & Nr & Ho & Ht).
  assert (HX := tracks_abs b s x Hb Nb). assert (HY := tracks_abs r s y Hr Nr). assert (PB := Rabs_pos_lt _ Nb). assert (PT := Rabs_pos_lt _ Nr).
  set (B := fun z => Rabs (b z)) in *. set (T := fun z => Rabs (r z)) in *. change (Rabs (b s)) with (B s) in *. change (Rabs (r s)) with (T s) in *.
  assert (Harea : Rabs (1 - T s) < B s < 1 + T s -> 10 * eps <= 4 * (B s) ^ 2 * (T s) ^ 2 - ((B s) ^ 2 + (T s) ^ 2 - 1) ^ 2).
  { intros [H1 H2]. destruct (Rabs_def2 _ _ H1). destruct (Ht H2 ltac:(lra)) as (_ & _ & H3 & _). now apply H3. }
  pose proof (tracks_kappas eps He s B T (dabs x) (dabs y) HX HY PB PT Ho Harea) as HK.
  assert (EK : kappas_d eps (dabs x) (dabs y) = (fst (fst (kappas_d eps (dabs x) (dabs y))), fst (sol_kappas_d eps (dabs x) (dabs y)), snd (sol_kappas_d eps (dabs x) (dabs y)))) by reflexivity.
  rewrite EK in HK. destruct HK as (_ & T0 & T1). clear EK.
  unfold sol_entry_d. cbv zeta. rewrite (surjective_pairing (sol_kappas_d eps (dabs x) (dabs y))). set (Z0 := fst (sol_kappas_d _ _ _)) in *. set (Z1 := snd (sol_kappas_d _ _ _)) in *.
  change (fun z => sol_entry eps low high (b z) (r z) l nu) with (fun z => q_entry (/ 2 * PI - k1 (B z) (T z)) l nu - pint_entry eps low high (B z) (T z) (k0 (B z) (T z)) l nu).
  apply tracks_sub; [apply (tracks_q_entry (fun z => / 2 * PI - k1 (B z) (T z))); trk|].
  pose proof (stable_ocond s B T (dabs x) (dabs y) HX HY Ho) as Sc. destruct (ocond (B s) (T s)) eqn:E.
  - (* no edge inside the star *)
    assert (G : forall z, 0 < B z -> 0 < T z -> ocond (B z) (T z) = true -> k0 (B z) (T z) = 0).
    { intros z Pz Qz Oz. change (k0 (B z) (T z)) with (fst (sol_kappas (B z) (T z))). rewrite outside_kappas; [reflexivity|lra|lra|lra|lra|].
      unfold ocond in Oz. apply orb_true_iff in Oz. destruct Oz as [Oz|Oz]; [left; unfold Rgeb in Oz; apply Rleb_true in Oz|right; apply Rleb_true in Oz]; lra. }
    assert (LB := locally_lt (fun _ => 0) B s (continuous_const 0 s) (tracks_cont _ _ _ HX) PB). assert (LT := locally_lt (fun _ => 0) T s (continuous_const 0 s) (tracks_cont _ _ _ HY) PT).
    assert (L0 : locally s (fun z => k0 (B z) (T z) = 0)).
    { unfold stable in Sc. apply (filter_imp (fun z => (0 < B z /\ 0 < T z) /\ ocond (B z) (T z) = ocond (B s) (T s))).
      - intros z ((P1 & P2) & P3). apply G; [assumption|assumption|congruence].
      - apply filter_and; [now apply filter_and|exact Sc]. }
    assert (EZ : Z0 = cst 0) by (apply (cst_of_tracks 0 s); now apply (tracks_ext (fun z => k0 (B z) (T z)))).
    rewrite EZ, (pint_cst0 eps low high _ _ (B s) (T s) l nu He (tracks_fin _ _ _ HX) (tracks_fin _ _ _ HY)).
    apply (tracks_ext (fun _ => 0)); [|apply tracks_cst]. revert L0. apply filter_imp. intros z ->. now rewrite pint_0.
  - destruct (no_occult _ _ PB PT E) as [L1 L2]. destruct (Ht L1 L2) as (N4 & NR & _ & HQ).
    assert (EA : k0 (B s) (T s) = edge_angle (B s) (T s)).
    { destruct (contact_ok (B s) (T s) ltac:(lra) ltac:(lra) L1 L2) as (A & q0 & q1 & EA & _ & _ & Eq & _). unfold k0. rewrite EA. exact Eq. }
    apply (tracks_pint eps He s B T (fun z => k0 (B z) (T z))); try assumption; [apply Rabs_def1; lra|]. cbv beta. rewrite EA. exact HQ.
Qed.
