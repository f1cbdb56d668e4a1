(** Consequences for jax.grad of the light curve. *)
From Coq Require Import Reals List Bool Arith Lia Lra Psatz.
From Coquelicot Require Import Hierarchy Derive Continuity Rbar Rcomplements AutoDerive.
From Verif Require Import Base.RealAux Model.LimbDark Model.AutoDiff Model.LightCurveGrad Spec.LimbDarkSpec Spec.OccultSpec Spec.AutoDiffSpec.
From Verif Require Import Proof.AutoDiff Proof.LimbDarkProof Proof.LimbDarkGreen Proof.LimbDarkArea Proof.Occult Proof.LightCurveGrad Proof.LightCurveDeriv Proof.LightCurveTangent.
Import ListNotations.
Local Open Scope R_scope.

Lemma finl_cst u : List.Forall2 fin (map cst u) u.
Proof. induction u; cbn; constructor; [apply fin_cst|assumption]. Qed.
Lemma nth_seq_map u : map (fun i => nth i u 0) (seq 0 (length u)) = u.
Proof.
  induction u as [|a u IH]; [reflexivity|]. cbn [length seq map nth]. f_equal. rewrite <- seq_shift, map_map. exact IH.
Qed.
Lemma finl_seed k u : List.Forall2 fin (seed k u) u.
Proof.
  rewrite <- (nth_seq_map u) at 2. unfold seed. apply finl_map_seq. intros i. eexists. reflexivity.
Qed.
Lemma trackl_cst (u : list R) (s : R) : List.Forall2 (fun f x => tracks f s x) (map (fun v (_ : R) => v) u) (map cst u).
Proof. induction u; cbn; constructor; [apply tracks_cst|assumption]. Qed.
Lemma at_cst (u : list R) (s : R) : map (fun f => f s) (map (fun v (_ : R) => v) u) = u.
Proof. rewrite map_map. apply map_id. Qed.
Lemma tracks_id s : tracks (fun z => z) s (Some (s, 1)).
Proof. exists 1. split; [reflexivity|]. apply (is_derive_id (K := R_AbsRing)). Qed.
Lemma trackl_seed k u s : nth k u 0 = s -> List.Forall2 (fun f x => tracks f s x) (map (fun i z => if (i =? k)%nat then z else nth i u 0) (seq 0 (length u))) (seed k u).
Proof.
  intros E. unfold seed. generalize 0%nat at 1 2. generalize (length u). induction n as [|n IH]; intros m; cbn [seq map]; constructor; [|apply IH].
  destruct (m =? k)%nat eqn:Em.
  - apply Nat.eqb_eq in Em. subst m. rewrite E. apply tracks_id.
  - apply tracks_cst.
Qed.
Lemma at_seed k u z : map (fun f => f z) (map (fun i z => if (i =? k)%nat then z else nth i u 0) (seq 0 (length u))) = set_nth k z u.
Proof. rewrite map_map. reflexivity. Qed.
Lemma set_nth_same k u : set_nth k (nth k u 0) u = u.
Proof.
  transitivity (map (fun i => nth i u 0) (seq 0 (length u))); [|apply nth_seq_map]. apply map_ext. intros i. destruct (i =? k)%nat eqn:E; [|reflexivity]. apply Nat.eqb_eq in E. now subst.
Qed.

Lemma grad_correct eps quad u b r : 0 < eps -> disk_flux u <> 0 -> regular_point eps quad b r ->
  (exists g, grad_b eps quad u b r = Some g /\ is_derive (fun x => light_curve eps quad u x r) b g) /\
  (exists g, grad_r eps quad u b r = Some g /\ is_derive (fun x => light_curve eps quad u b x) r g) /\
  (forall k, (k < length u)%nat -> exists g, grad_u eps quad k u b r = Some g /\ is_derive (fun x => light_curve eps quad (set_nth k x u) b r) (nth k u 0) g).
Proof.
  intros He HF (Nb & Nr & Ho & Ht).
  assert (W : forall f s x, tracks f s x -> exists g, tangent x = Some g /\ is_derive f s g) by (intros f s x (g & -> & Hg); exists g; split; [reflexivity|exact Hg]).
  split; [|split].
  - apply W. apply (tracks_ext' (fun z => light_curve eps quad (map (fun f => f z) (map (fun v (_ : R) => v) u)) z r)); [intros; now rewrite at_cst|].
    apply (tracks_light_curve eps quad _ (fun z => z) (fun _ => r)); try assumption; [apply trackl_cst|apply tracks_id|apply tracks_cst|now rewrite at_cst].
  - apply W. apply (tracks_ext' (fun z => light_curve eps quad (map (fun f => f z) (map (fun v (_ : R) => v) u)) b z)); [intros; now rewrite at_cst|].
    apply (tracks_light_curve eps quad _ (fun _ => b) (fun z => z)); try assumption; [apply trackl_cst|apply tracks_cst|apply tracks_id|now rewrite at_cst].
  - intros k _. apply W. apply (tracks_ext' (fun z => light_curve eps quad (map (fun f => f z) (map (fun i z => if (i =? k)%nat then z else nth i u 0) (seq 0 (length u)))) b r)); [intros; now rewrite at_seed|].
    apply (tracks_light_curve eps quad _ (fun _ => b) (fun _ => r)); try assumption; [now apply trackl_seed|apply tracks_cst|apply tracks_cst|]. rewrite at_seed, set_nth_same. exact HF.
Qed.
Lemma grad_finite eps quad u b r : 0 < eps -> disk_flux u <> 0 -> ~ (Rabs b = 0 /\ Rabs r = 1) -> ~ (Rabs b = 1 /\ Rabs r = 0) ->
  grad_b eps quad u b r <> None /\ grad_r eps quad u b r <> None /\ forall k, grad_u eps quad k u b r <> None.
Proof.
  intros He HF N1 N2. assert (W : forall x v, fin x v -> tangent x <> None) by (intros x v (t & ->); discriminate).
  split; [|split]; [| |intros k]; (eapply W; apply (fin_light_curve eps quad _ u _ _ b r He); [apply finl_cst || apply finl_seed|eexists; reflexivity|eexists; reflexivity|exact HF|exact N1|exact N2]).
Qed.
(** ** outside of a transit *)
Lemma atan2_cst_tangent d v : fin d v -> v <> 0 -> datan2 (cst 0) d = cst (atan2 0 v).
Proof.
  intros (t & ->) Hv. unfold datan2, cst. cbn [val]. destruct (Req_EM_T (v ^ 2 + 0 ^ 2) 0) as [E|_]; [exfalso; assert (0 < v ^ 2) by (apply pow2_gt_0; exact Hv); lra|].
  unfold lift2. do 2 f_equal. unfold Rdiv. ring.
Qed.
Lemma outside_solution eps quad x y b r n : 0 < eps -> fin x b -> fin y r -> ~ (Rabs b = 0 /\ Rabs r = 1) -> ~ (Rabs b = 1 /\ Rabs r = 0) ->
  1 + Rabs r <= Rabs b \/ 1 + Rabs b <= Rabs r ->
  solution_d eps quad x y n = cst (match n with O => if Rleb (1 + Rabs b) (Rabs r) then 0 else PI | S O => - 0 - 2 * ((if Rleb (1 + Rabs b) (Rabs r) then PI else 0) - PI) / 3 | S (S O) => 0 | _ => - 0 end).
Proof.
  intros He Hx0 Hy0 N1 N2 Ho. assert (Hx : fin (dabs x) (Rabs b)) by now apply fin_abs. assert (Hy : fin (dabs y) (Rabs r)) by now apply fin_abs. clear Hx0 Hy0.
  unfold solution_d. set (X := dabs x) in *. set (Y := dabs y) in *. set (B := Rabs b) in *. set (T := Rabs r) in *. assert (PB : 0 <= B) by apply Rabs_pos. assert (PT : 0 <= T) by apply Rabs_pos.
  pose proof (fin_kappas eps X Y B T He Hx Hy PB PT N1 N2) as HK. rewrite (fin_val _ _ Hx), (fin_val _ _ Hy).
  destruct (angles_ok B T PB PT N1 N2) as [A1 A2].
  assert (Ec : Rgtb B (Rabs (1 - T)) && Rltb B (1 + T) = false).
  { apply andb_false_iff. destruct Ho as [Ho|Ho]; [right; apply Rltb_false; lra|left; apply Rltb_false]. rewrite Rabs_left1 by lra. lra. }
  rewrite Ec in A1, A2. assert (M1 : B² + (T - 1) * (T + 1) <> 0) by (destruct A1 as [A|A]; [exact A|now contradiction A]). assert (M2 : B² - (T - 1) * (T + 1) <> 0) by (destruct A2 as [A|A]; [exact A|now contradiction A]).
  assert (EK : kappas_d eps X Y = (cst 0, cst (atan2 0 (B² + (T - 1) * (T + 1))), cst (atan2 0 (B² - (T - 1) * (T + 1))))).
  { unfold kappas_d. rewrite (fin_val _ _ Hx), (fin_val _ _ Hy), Ec.
    assert (Fk : fin (kite_area_d eps Y (dwhere false X (cst 1)) (cst 1)) (kite_area T 1 1)) by (apply fin_kite; [exact He|exact Hy|apply (fin_where false _ _ B 1 Hx (fin_cst 1))|apply fin_cst]).
    destruct Fk as (t & ->). cbn [dwhere cst]. fold (cst 0). f_equal; [f_equal|]; apply atan2_cst_tangent; try assumption; fin. }
  rewrite EK in *. destruct HK as (Ha & Hk0 & Hk1).
  assert (Eo : Rgeb B (1 + T) || Rleb (1 + B) T = true) by (apply orb_true_iff; destruct Ho as [Ho|Ho]; [left; apply Rleb_true; lra|right; now apply Rleb_true]).
  rewrite Eo. assert (Hb : fin (dwhere true (cst 1) X) 1) by apply (fin_where true _ _ 1 B (fin_cst 1) Hx). set (b_ := dwhere true (cst 1) X) in *.
  assert (Hb2 : fin (dsq b_) (1²)) by fin. assert (Hr2 : fin (dsq Y) (T²)) by fin.
  pose proof (fin_s0s2 b_ Y (dsq b_) (dsq Y) _ _ _ 1 T _ _ _ _ _ Hb Hy Hb2 Hr2 Ha Hk0 Hk1) as HS.
  destruct (s0s2_d _ _ _ _ _ _ _) as [s0 s2]. destruct (s0s2 _ _ _ _ _ _ _) as [s0' s2']. destruct HS as [(t0 & ->) (t2 & ->)].
  assert (HP : forall m, m = 1%nat \/ (3 <= m)%nat -> dwhere true (cst 0) (p_entry_d eps quad b_ Y (dsq b_) (dsq Y) (cst (atan2 0 (B² + (T - 1) * (T + 1)))) m) = cst 0).
  { intros m Hm. destruct (fin_entry eps He quad _ _ _ _ _ _ _ _ _ _ m Hm Hb Hy Hb2 Hr2 Hk0) as (t & ->). reflexivity. }
  destruct n as [|[|[|n]]].
  - destruct (Rleb (1 + B) T) eqn:E; [destruct (Rgeb B (1 + T)); reflexivity|]. cbn [orb] in Eo. rewrite orb_false_r in Eo. rewrite Eo. reflexivity.
  - rewrite HP by now left. replace (atan2 0 (B² - (T - 1) * (T + 1))) with (if Rleb (1 + B) T then PI else 0).
    + unfold ddiv, cst. cbn [val]. destruct (Req_EM_T 3 0); [lra|]. unfold dsub, dneg, dmul, lift1, lift2. do 2 f_equal. field.
    + destruct (Rleb (1 + B) T) eqn:E.
      * apply Rleb_true in E. symmetry. apply atan2_0_neg. assert ((1 + B) * (1 + B) <= T * T) by (apply Rmult_le_compat; lra). unfold Rsqr in *. nra.
      * apply Rleb_false in E. symmetry. apply atan2_0_pos. assert (L : 1 + T <= B) by lra. assert ((1 + T) * (1 + T) <= B * B) by (apply Rmult_le_compat; lra). unfold Rsqr in *. nra.
  - reflexivity.
  - rewrite HP by (right; lia). unfold dneg, lift1, cst. f_equal. f_equal. ring.
Qed.
Lemma lines us u : List.Forall2 fin us u -> exists fs, trackl fs 0 us /\ map (fun f => f 0) fs = u.
Proof.
  induction 1 as [|x v us u (t & ->) Hl (fs & IH1 & IH2)]; [exists []; split; [constructor|reflexivity]|].
  exists ((fun z => v + t * z) :: fs). split; [constructor; [|exact IH1]|cbn; f_equal; [ring|exact IH2]].
  exists t. split; [do 2 f_equal; ring|]. auto_derive; [exact I|ring].
Qed.
Lemma flux_local us s xs : trackl us s xs -> disk_flux (at_ us s) <> 0 -> locally s (fun z => at_ us z <> [] -> flux_norm (greens_basis_transform (at_ us z)) <> 0).
Proof.
  intros Hu HF. destruct Hu as [|f x us xs Hx Hl]; [apply filter_forall; intros z H; now contradiction H|].
  assert (Hu : trackl (f :: us) s (x :: xs)) by now constructor. set (U := f :: us) in *. set (V := x :: xs) in *.
  pose proof (trackl_gbt s U V Hu) as HG. set (nz := fun z => flux_norm (at_ (gbf U) z)).
  assert (TN : tracks nz s (dmul (cst PI) (dadd (nth 0 (greens_basis_transform_d V) (cst 0)) (ddiv (nth 1 (greens_basis_transform_d V) (cst 0)) (cst 1.5))))).
  { unfold nz, flux_norm. apply tracks_mul; [apply tracks_cst|]. apply tracks_add; [now apply trackl_nth|]. apply tracks_div; [now apply trackl_nth|apply tracks_cst|lra]. }
  assert (NN : nz s <> 0). { unfold nz. rewrite at_gbf, flux_norm_is_disk_flux by (unfold U; cbn; congruence). exact HF. }
  assert (CN := tracks_cont _ _ _ TN).
  destruct (Rtotal_order (nz s) 0) as [L|[L|L]]; [|contradiction|].
  - generalize (locally_lt nz (fun _ => 0) s CN (continuous_const 0 s) L). apply filter_imp. intros z Hz _. rewrite <- at_gbf. change (nz z <> 0). lra.
  - generalize (locally_lt (fun _ => 0) nz s (continuous_const 0 s) CN L). apply filter_imp. intros z Hz _. rewrite <- at_gbf. change (nz z <> 0). lra.
Qed.
Lemma outside_zero eps quad us u x y b r : 0 < eps -> List.Forall2 fin us u -> fin x b -> fin y r -> disk_flux u <> 0 ->
  ~ (Rabs b = 0 /\ Rabs r = 1) -> ~ (Rabs b = 1 /\ Rabs r = 0) ->
  (1 + Rabs r <= Rabs b -> light_curve_d eps quad us x y = Some (0, 0)) /\ (1 + Rabs b <= Rabs r -> light_curve_d eps quad us x y = Some (- 1, 0)).
Proof.
  intros He Hu Hx Hy HF N1 N2.
  assert (W : forall b' r' c, off_contacts b' r' -> 0 < b' -> 0 < r' -> (1 + r' < b' \/ 1 + b' < r') -> (1 + Rabs r <= Rabs b \/ 1 + Rabs b <= Rabs r) -> (Rleb (1 + Rabs b) (Rabs r) = Rleb (1 + b') r') ->
    (forall w, (w <> [] -> flux_norm (greens_basis_transform w) <> 0) -> light_curve eps quad w b' r' = c) -> light_curve_d eps quad us x y = Some (c, 0)).
  { intros b' r' c Ho Pb Pr Hc Hc' Ed HL.
    destruct (lines us u Hu) as (fs & Hfs & E0).
    assert (Ab : Rabs b' = b') by (apply Rabs_pos_eq; lra). assert (Ar : Rabs r' = r') by (apply Rabs_pos_eq; lra).
    assert (Es : light_curve_d eps quad us x y = light_curve_d eps quad us (cst b') (cst r')).
    { unfold light_curve_d. do 2 f_equal. unfold solution_vector_d. apply map_ext. intros n.
      rewrite (outside_solution eps quad x y b r n He Hx Hy N1 N2 Hc'). rewrite (outside_solution eps quad (cst b') (cst r') b' r' n He (fin_cst _) (fin_cst _)); rewrite ?Ab, ?Ar; try lra. now rewrite Ed. }
    assert (TT : tracks (fun z => light_curve eps quad (map (fun f => f z) fs) b' r') 0 (light_curve_d eps quad us (cst b') (cst r'))).
    { apply (tracks_light_curve eps quad fs (fun _ => b') (fun _ => r') 0 us (cst b') (cst r') He Hfs (tracks_cst b' 0) (tracks_cst r' 0)).
      - rewrite E0. exact HF.
      - lra.
      - lra.
      - rewrite Ab, Ar. exact Ho.
      - rewrite Ab, Ar. intros; exfalso; lra. }
    destruct TT as (t & Et & Dt).
    rewrite Es, Et. cbv beta. rewrite E0. assert (HU : u <> [] -> flux_norm (greens_basis_transform u) <> 0) by (intros; rewrite flux_norm_is_disk_flux; assumption).
    rewrite (HL u HU). do 2 f_equal.
    apply (is_derive_unique (fun z => light_curve eps quad (map (fun f => f z) fs) b' r')) in Dt. rewrite <- Dt.
    apply is_derive_unique. apply (is_derive_ext_loc (fun _ => c)); [|apply (is_derive_const (V := R_NormedModule))].
    assert (HF' : disk_flux (at_ fs 0) <> 0) by (unfold at_; now rewrite E0). generalize (flux_local fs 0 us Hfs HF'). apply filter_imp. intros z Hz. symmetry. now apply HL. }
  split; intros H.
  - apply (W 3 1 0); try (unfold off_contacts; lra); try (left; assumption).
    + transitivity false; [|symmetry]; apply Rleb_false; [|lra]. pose proof (Rabs_pos b). pose proof (Rabs_pos r). lra.
    + intros w Hw. apply light_curve_no_occ; [exact Hw|]. rewrite !Rabs_pos_eq by lra. lra.
  - apply (W 1 3 (- 1)); try (unfold off_contacts; lra); try (right; assumption).
    + transitivity true; [|symmetry]; apply Rleb_true; lra.
    + intros w Hw. apply light_curve_full_occ; rewrite !Rabs_pos_eq by lra; lra.
Qed.
(** ** the two points where a gradient is not a number *)
Lemma undefined_first eps quad x y us : solution_d eps quad x y 0 = None -> light_curve_d eps quad us x y = None.
Proof.
  intros H. unfold light_curve_d. unfold solution_vector_d. set (g := norm_coeffs_d us). destruct g as [|c g1] eqn:E.
  - exfalso. subst g. destruct us; discriminate.
  - cbn [length]. replace (S (length g1) - 1 + 1)%nat with (S (length g1)) by lia. cbn [seq map]. rewrite H. unfold ddot. cbn [combine map dsum fold_right fst snd]. reflexivity.
Qed.
Lemma where_none c x : dwhere c x None = None.
Proof. destruct x; reflexivity. Qed.
Lemma lift2_none_r f df x : lift2 f df x None = None.
Proof. destruct x as [[? ?]|]; reflexivity. Qed.
Lemma lift2_none_l f df x : lift2 f df None x = None.
Proof. reflexivity. Qed.
Lemma undefined eps quad us x y b r : fin x b -> fin y r -> (Rabs b = 0 /\ Rabs r = 1) \/ (Rabs b = 1 /\ Rabs r = 0) -> light_curve_d eps quad us x y = None.
Proof.
  intros Hx0 Hy0 N. apply undefined_first. assert (Hx : fin (dabs x) (Rabs b)) by now apply fin_abs. assert (Hy : fin (dabs y) (Rabs r)) by now apply fin_abs.
  unfold solution_d. set (X := dabs x) in *. set (Y := dabs y) in *.
  assert (EK : snd (fst (kappas_d eps X Y)) = None).
  { unfold kappas_d. cbn [fst snd]. rewrite (fin_val _ _ Hx), (fin_val _ _ Hy).
    assert (Ec : Rgtb (Rabs b) (Rabs (1 - Rabs r)) && Rltb (Rabs b) (1 + Rabs r) = false).
    { apply andb_false_iff. destruct N as [[-> ->]|[-> ->]]; [left|right]; apply Rltb_false; [|lra]. replace (1 - 1) with 0 by ring. rewrite Rabs_R0. lra. }
    rewrite Ec. destruct (kite_area_d eps Y (dwhere false X (cst 1)) (cst 1)) as [kk|]; [|cbn [dwhere]; unfold datan2; match goal with |- (if ?q then _ else _) = None => destruct q; reflexivity end].
    change (dwhere false (Some kk) (cst 0)) with (cst 0).
    match goal with |- datan2 _ ?d = None => assert (Fd : fin d 0) end.
    { replace 0 with ((Rabs b)² + (Rabs r - 1) * (Rabs r + 1)) by (destruct N as [[-> ->]|[-> ->]]; unfold Rsqr; ring). fin. }
    destruct Fd as (u & ->). unfold datan2, cst. cbn [val]. destruct (Req_EM_T (0 ^ 2 + 0 ^ 2) 0) as [_|n]; [reflexivity|exfalso; apply n; ring]. }
  destruct (kappas_d eps X Y) as [[a u] v]. cbn [fst snd] in EK. subst u.
  assert (ES : fst (s0s2_d (dwhere (Rgeb (val X) (1 + val Y) || Rleb (1 + val X) (val Y)) (cst 1) X) Y (dsq (dwhere (Rgeb (val X) (1 + val Y) || Rleb (1 + val X) (val Y)) (cst 1) X)) (dsq Y) a None v) = None).
  { unfold s0s2_d. cbn [fst]. set (q := dsub (cst PI) _). assert (Eq : q = None). { unfold q. unfold dsub, dadd, dmul. rewrite !lift2_none_r; rewrite ?lift2_none_r; reflexivity || apply lift2_none_r. } rewrite Eq. apply where_none. }
  destruct (s0s2_d _ _ _ _ _ _ _) as [s0 s2]. cbn [fst] in ES. subst s0. rewrite !where_none. reflexivity.
Qed.
Lemma regular_point_sat : regular_point (/ 1000000) [(0, 2)] 0.3 0.1.
Proof.
  unfold regular_point. rewrite !Rabs_pos_eq by lra. split; [lra|]. split; [lra|]. split; [unfold off_contacts; lra|]. intros _ _. unfold off_thresholds. split; [lra|]. split; [rewrite Rabs_pos_eq; lra|].
  intros x w [E|[]]. injection E as <- <-. unfold edge_angle. destruct (Rle_dec (0.3 + 0.1) 1); [|lra].
  replace (node_at 0 PI 0) with (PI / 2) by (unfold node_at; field). unfold edge_rho2. rewrite cos_PI2. cbv zeta. lra.
Qed.
Lemma flux_nil : disk_flux [] <> 0.
Proof. rewrite disk_flux_closed. cbn [ld_norm_sum]. pose proof PI_RGT_0. lra. Qed.
Lemma flux_linear : disk_flux [0.3] <> 0.
Proof. rewrite disk_flux_closed. cbn [ld_norm_sum]. pose proof PI_RGT_0. apply Rmult_integral_contrapositive_currified; [lra|]. cbn. lra. Qed.
Lemma regular_point_sat2 : regular_point (/ 1000000) [(1, 2)] 1 0.1.
Proof.
  unfold regular_point. rewrite !Rabs_pos_eq by lra. split; [lra|]. split; [lra|]. split; [unfold off_contacts; lra|]. intros _ _. unfold off_thresholds. split; [lra|]. split; [intros _; lra|].
  intros x w [E|[]]. injection E as <- <-. unfold edge_angle. destruct (Rle_dec (1 + 0.1) 1); [lra|].
  replace ((1 ^ 2 + 0.1 ^ 2 - 1) / (2 * 1 * 0.1)) with 0.05 by (replace 0.1 with (/ 10) by lra; replace 0.05 with (/ 20) by lra; field). replace (node_at 0 (acos 0.05) 1) with (acos 0.05) by (unfold node_at; field).
  unfold edge_rho2. rewrite cos_acos by lra. cbv zeta. lra.
Qed.
