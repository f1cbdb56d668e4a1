(** rT holds the disk integrals of the polynomial basis. *)
From Coq Require Import Reals Lra Lia ZArith List Bool Arith.
From Verif Require Import Base.RealAux Spec.PolySpec Spec.BasisSpec Spec.DiskSpec Model.Basis Model.Solution Proof.DiskProof.
Import ListNotations.
Open Scope R_scope.

Definition rspec (n : nat) : R := let l := Nat.sqrt n in Dm l (n - l * l).
Lemma rspec_eq l nu : (nu <= 2 * l)%nat -> rspec (l * l + nu) = Dm l nu.
Proof.
  intros H. unfold rspec. replace (Nat.sqrt (l * l + nu)) with l.
  - f_equal. lia.
  - symmetry. apply Nat.sqrt_unique. lia.
Qed.
Definition ent0 (p q : nat) : R := gamma_up p * gamma_up q / INR (fact (p + q + 1)).
Definition ent1 (p q : nat) : R := gamma_up p * gamma_up q * lf2 (p + q).
Lemma half2 n : (2 * n / 2 = n)%nat.
Proof. rewrite Nat.mul_comm. apply Nat.div_mul. lia. Qed.
Lemma even4 q : Nat.even (4 * q) = true.
Proof. replace (4 * q)%nat with (2 * (2 * q))%nat by lia. apply Nat.even_spec. now exists (2 * q)%nat. Qed.
Lemma Dm0 p q : Dm (2 * (p + q)) (4 * q) = ent0 p q.
Proof.
  rewrite Dm_even by apply even4. replace (2 * (2 * (p + q)) - 4 * q)%nat with (2 * (2 * p))%nat by lia.
  replace (4 * q)%nat with (2 * (2 * q))%nat by lia. rewrite !half2. apply disk_even0.
Qed.
Lemma Dm1 p q : Dm (2 * (p + q) + 1) (4 * q + 1) = ent1 p q.
Proof.
  rewrite Dm_odd by (rewrite Nat.even_add, even4; reflexivity).
  replace (2 * (2 * (p + q) + 1) - (4 * q + 1) - 1)%nat with (2 * (2 * p))%nat by lia.
  replace (4 * q + 1 - 1)%nat with (2 * (2 * q))%nat by lia. rewrite !half2. apply disk_even1.
Qed.
Lemma ent0_sym p q : ent0 p q = ent0 q p.
Proof. unfold ent0. rewrite (Nat.add_comm p q). unfold Rdiv. ring. Qed.
Lemma ent1_sym p q : ent1 p q = ent1 q p.
Proof. unfold ent1. rewrite (Nat.add_comm p q). ring. Qed.
Lemma rspec0 p q : rspec (2 * (p + q) * (2 * (p + q)) + 4 * q) = ent0 p q.
Proof. rewrite rspec_eq by lia. apply Dm0. Qed.
Lemma rspec1 p q : rspec ((2 * (p + q) + 1) * (2 * (p + q) + 1) + (4 * q + 1)) = ent1 p q.
Proof. rewrite rspec_eq by lia. apply Dm1. Qed.

(** every entry is 0 or final; entries that are final stay so *)
Definition good (rt : nat -> R) : Prop := forall n, rt n = 0 \/ rt n = rspec n.
Definition keeps (rt rt' : nat -> R) : Prop := forall n, rt n = rspec n -> rt' n = rspec n.
Lemma keeps_trans a b c : keeps a b -> keeps b c -> keeps a c.
Proof. unfold keeps. auto. Qed.
Lemma rset_good rt i v : good rt -> v = rspec i -> good (rset rt i v) /\ keeps rt (rset rt i v) /\ rset rt i v i = rspec i.
Proof.
  intros H ->. unfold rset. split; [|split].
  - intros n. destruct (Nat.eqb_spec n i) as [->|]; auto.
  - intros n Hn. destruct (Nat.eqb_spec n i) as [->|]; auto.
  - now rewrite Nat.eqb_refl.
Qed.
Definition done (lmax p q : nat) (rt : nat -> R) : Prop :=
  rt (2 * (p + q) * (2 * (p + q)) + 4 * q)%nat = ent0 p q /\
  rt (2 * (p + q) * (2 * (p + q)) + 4 * p)%nat = ent0 p q /\
  ((2 * (p + q) < lmax)%nat ->
   rt ((2 * (p + q) + 1) * (2 * (p + q) + 1) + (4 * q + 1))%nat = ent1 p q /\
   rt ((2 * (p + q) + 1) * (2 * (p + q) + 1) + (4 * p + 1))%nat = ent1 p q).
Lemma done_keeps lmax p q rt rt' : done lmax p q rt -> keeps rt rt' -> done lmax p q rt'.
Proof.
  unfold done, keeps. intros (H1 & H2 & H3) K. rewrite <- (rspec0 p q) in H1. split; [|split].
  - rewrite (K _ H1). apply rspec0.
  - rewrite ent0_sym, <- (rspec0 q p), (Nat.add_comm q p) in H2. rewrite (K _ H2). rewrite ent0_sym, (Nat.add_comm p q). apply rspec0.
  - intros H. destruct (H3 H) as [H4 H5]. split.
    + rewrite <- (rspec1 p q) in H4. rewrite (K _ H4). apply rspec1.
    + rewrite ent1_sym, <- (rspec1 q p), (Nat.add_comm q p) in H5. rewrite (K _ H5). rewrite ent1_sym, (Nat.add_comm p q). apply rspec1.
Qed.
(** one inner step *)
Lemma inner_step lmax p q rt m : (p <= q)%nat -> m = (2 * (q - p))%nat -> good rt ->
  exists rt', rT_inner lmax (2 * (p + q)) (/ INR (fact (p + q + 1))) (lf2 (p + q)) (rt, gamma_up p * gamma_up q) m =
    (rt', gamma_up p * gamma_up q * ((4 * INR q + 2) / (4 * INR p - 2))) /\
  good rt' /\ keeps rt rt' /\ done lmax p q rt'.
Proof.
  intros Hpq -> Hg. unfold rT_inner. set (ell := (2 * (p + q))%nat).
  replace (ell * ell + ell + 2 * (q - p))%nat with (2 * (p + q) * (2 * (p + q)) + 4 * q)%nat by (unfold ell; lia).
  replace (ell * ell + ell - 2 * (q - p))%nat with (2 * (p + q) * (2 * (p + q)) + 4 * p)%nat by (unfold ell; lia).
  replace ((ell + 1) * (ell + 1) + ell + 2 * (q - p) + 1)%nat with ((2 * (p + q) + 1) * (2 * (p + q) + 1) + (4 * q + 1))%nat by (unfold ell; lia).
  replace ((ell + 1) * (ell + 1) + ell - 2 * (q - p) + 1)%nat with ((2 * (p + q) + 1) * (2 * (p + q) + 1) + (4 * p + 1))%nat by (unfold ell; lia).
  assert (Ea : (INR ell + INR (2 * (q - p)) + 2) / (INR ell - INR (2 * (q - p)) - 2) = (4 * INR q + 2) / (4 * INR p - 2)).
  { unfold ell. rewrite !mult_INR, minus_INR, plus_INR by lia. cbn [INR]. f_equal; [ring|]. f_equal. ring. }
  rewrite Ea. change (gamma_up p * gamma_up q * / INR (fact (p + q + 1))) with (ent0 p q).
  change (gamma_up p * gamma_up q * lf2 (p + q)) with (ent1 p q).
  destruct (rset_good rt _ (ent0 p q) Hg (eq_sym (rspec0 p q))) as (G1 & K1 & E1). set (rt1 := rset rt _ (ent0 p q)) in *.
  assert (S2 : ent0 p q = rspec (2 * (p + q) * (2 * (p + q)) + 4 * p)) by (rewrite ent0_sym, (Nat.add_comm p q); symmetry; apply rspec0).
  destruct (rset_good rt1 _ (ent0 p q) G1 S2) as (G2 & K2 & E2). set (rt2 := rset rt1 _ (ent0 p q)) in *.
  destruct (Nat.ltb_spec ell lmax) as [Hl|Hl].
  - destruct (rset_good rt2 _ (ent1 p q) G2 (eq_sym (rspec1 p q))) as (G3 & K3 & E3). set (rt3 := rset rt2 _ (ent1 p q)) in *.
    assert (S4 : ent1 p q = rspec ((2 * (p + q) + 1) * (2 * (p + q) + 1) + (4 * p + 1))) by (rewrite ent1_sym, (Nat.add_comm p q); symmetry; apply rspec1).
    destruct (rset_good rt3 _ (ent1 p q) G3 S4) as (G4 & K4 & E4). set (rt4 := rset rt3 _ (ent1 p q)) in *.
    exists rt4. split; [reflexivity|]. split; [exact G4|]. split; [apply (keeps_trans _ rt1), (keeps_trans _ rt2), (keeps_trans _ rt3); assumption|].
    split; [|split].
    + rewrite <- rspec0. apply K4, K3, K2, E1.
    + rewrite S2. apply K4, K3, E2.
    + intros _. split; [rewrite <- rspec1; apply K4, E3|rewrite S4; exact E4].
  - exists rt2. split; [reflexivity|]. split; [exact G2|]. split; [apply (keeps_trans _ rt1); assumption|].
    split; [rewrite <- rspec0; apply K2, E1|]. split; [rewrite S2; exact E2|]. intros H. exfalso. unfold ell in Hl. lia.
Qed.
(** the inner loop: pairs (p0-k, q0+k) *)
Lemma inner_loop lmax p0 q0 : (p0 <= q0)%nat -> forall r k rt, (k + r = p0 + 1)%nat -> good rt ->
  exists rt' a', fold_left (rT_inner lmax (2 * (p0 + q0)) (/ INR (fact (p0 + q0 + 1))) (lf2 (p0 + q0)))
      (map (fun i => (2 * (q0 - p0) + 4 * i)%nat) (seq k r)) (rt, gamma_up (p0 - k) * gamma_up (q0 + k)) = (rt', a') /\
  good rt' /\ keeps rt rt' /\ (forall j, (k <= j < k + r)%nat -> done lmax (p0 - j) (q0 + j) rt').
Proof.
  intros Hpq. induction r as [|r IH]; intros k rt Hk Hg.
  - exists rt, (gamma_up (p0 - k) * gamma_up (q0 + k)). cbn [seq map fold_left]. split; [reflexivity|]. split; [exact Hg|]. split; [intros n; auto|]. intros; lia.
  - cbn [seq map fold_left].
    destruct (inner_step lmax (p0 - k) (q0 + k) rt (2 * (q0 - p0) + 4 * k)) as (rt1 & E & G1 & K1 & D1); [lia|lia|exact Hg|].
    replace (p0 - k + (q0 + k))%nat with (p0 + q0)%nat in E by lia. rewrite E.
    destruct (Nat.eq_dec r 0) as [->|Hr].
    + cbn [seq map fold_left]. exists rt1. eexists. split; [reflexivity|]. split; [exact G1|]. split; [exact K1|].
      intros j Hj. replace j with k by lia. exact D1.
    + replace (gamma_up (p0 - k) * gamma_up (q0 + k) * ((4 * INR (q0 + k) + 2) / (4 * INR (p0 - k) - 2)))
        with (gamma_up (p0 - S k) * gamma_up (q0 + S k)).
      2:{ replace (p0 - k)%nat with (S (p0 - S k)) by lia. replace (q0 + S k)%nat with (S (q0 + k)) by lia.
          rewrite !gamma_up_S. rewrite (S_INR (p0 - S k)). pose proof (pos_INR (p0 - S k)). field. lra. }
      destruct (IH (S k) rt1) as (rt2 & a2 & E2 & G2 & K2 & D2); [lia|exact G1|].
      exists rt2, a2. split; [exact E2|]. split; [exact G2|]. split; [apply (keeps_trans _ rt1); assumption|].
      intros j Hj. destruct (Nat.eq_dec j k) as [->|]; [|apply D2; lia]. apply (done_keeps _ _ _ rt1); assumption.
Qed.
Lemma nrange4_inner p0 q0 : (p0 <= q0)%nat -> nrange4 (2 * (q0 - p0)) (2 * (p0 + q0) + 1) = map (fun i => (2 * (q0 - p0) + 4 * i)%nat) (seq 0 (p0 + 1)).
Proof.
  intros H. unfold nrange4. f_equal. f_equal. replace (2 * (p0 + q0) + 1 - 2 * (q0 - p0) + 3)%nat with ((p0 + 1) * 4)%nat by lia. apply Nat.div_mul. lia.
Qed.
Lemma lf2_step n : lf2 (n + 2) = lf2 n / ((INR n + 5 / 2) * (INR n + 7 / 2)).
Proof. replace (n + 2)%nat with (S (S n)) by lia. cbn [lf2]. rewrite S_INR. pose proof (pos_INR n). field. lra. Qed.
(** the outer loops: [d] is 0 or 1, ell = 4 a + 2 d, first m is 2 d *)
Definition amp_d (d a : nat) : R := gamma_up a * gamma_up (a + d).
Lemma outer_loop lmax d grow : 
  (forall a, grow (INR (4 * a + 2 * d)) * amp_d d a = amp_d d (S a)) ->
  forall r k rt, good rt ->
  exists rt' x y z, fold_left (rT_outer lmax (2 * d) grow) (map (fun i => (2 * d + 4 * i)%nat) (seq k r))
      (rt, amp_d d k, / INR (fact (2 * k + d + 1)), lf2 (2 * k + d)) = (rt', x, y, z) /\
  good rt' /\ keeps rt rt' /\ (forall a j, (k <= a < k + r)%nat -> (j <= a)%nat -> done lmax (a - j) (a + d + j) rt').
Proof.
  intros Hgrow. induction r as [|r IH]; intros k rt Hg.
  - eexists rt, _, _, _. cbn [seq map fold_left]. split; [reflexivity|]. split; [exact Hg|]. split; [intros n; auto|]. intros; lia.
  - cbn [seq map fold_left].
    destruct (inner_loop lmax k (k + d) ltac:(lia) (k + 1) 0 rt ltac:(lia) Hg) as (rt1 & a1 & E & G1 & K1 & D1).
    rewrite <- (nrange4_inner k (k + d)) in E by lia.
    replace (2 * (k + (k + d)))%nat with (2 * d + 4 * k)%nat in E by lia.
    replace (k + (k + d))%nat with (2 * k + d)%nat in E by lia. replace (2 * (k + d - k))%nat with (2 * d)%nat in E by lia.
    replace (k - 0)%nat with k in E by lia. replace (k + d + 0)%nat with (k + d)%nat in E by lia.
    assert (Eo : rT_outer lmax (2 * d) grow (rt, amp_d d k, / INR (fact (2 * k + d + 1)), lf2 (2 * k + d)) (2 * d + 4 * k) =
                 (rt1, amp_d d (S k), / INR (fact (2 * S k + d + 1)), lf2 (2 * S k + d))).
    { unfold rT_outer, amp_d at 1. rewrite E. f_equal; [f_equal; [f_equal|]|].
      - rewrite <- Hgrow. replace (4 * k + 2 * d)%nat with (2 * d + 4 * k)%nat by lia. ring.
      - replace (2 * S k + d + 1)%nat with (S (S (2 * k + d + 1))) by lia. rewrite !fact_simpl, !mult_INR.
        pose proof (INR_fact_neq_0 (2 * k + d + 1)). pose proof (pos_INR k). pose proof (pos_INR d). rewrite !S_INR, !plus_INR, !mult_INR. cbn [INR]. field. repeat split; try assumption; lra.
      - replace (2 * S k + d)%nat with (2 * k + d + 2)%nat by lia. rewrite lf2_step. pose proof (pos_INR k). pose proof (pos_INR d).
        rewrite !plus_INR, !mult_INR. cbn [INR]. field. lra. }
    rewrite Eo. destruct (IH (S k) rt1 G1) as (rt2 & x & y & z & E2 & G2 & K2 & D2).
    exists rt2, x, y, z. split; [exact E2|]. split; [exact G2|]. split; [apply (keeps_trans _ rt1); assumption|].
    intros a j Ha Hj. destruct (Nat.eq_dec a k) as [->|]; [|apply D2; lia]. apply (done_keeps _ _ _ rt1); [|assumption]. apply D1. lia.
Qed.
Lemma grow0 a : / 16 * (INR (4 * a + 2 * 0) + 2) * (INR (4 * a + 2 * 0) + 2) * amp_d 0 a = amp_d 0 (S a).
Proof. unfold amp_d. rewrite !Nat.add_0_r, !gamma_up_S, mult_INR. cbn [INR]. field. Qed.
Lemma grow1 a : / 16 * INR (4 * a + 2 * 1) * (INR (4 * a + 2 * 1) + 4) * amp_d 1 a = amp_d 1 (S a).
Proof. unfold amp_d. rewrite !Nat.add_1_r, !gamma_up_S. rewrite (S_INR a), plus_INR, !mult_INR. cbn [INR]. field. Qed.
Lemma rT_fun_spec lmax n : (n < (lmax + 1) * (lmax + 1))%nat -> rT_fun lmax n = rspec n.
Proof.
  intros Hn. unfold rT_fun.
  assert (G0 : good (fun _ => 0)) by (intros m; now left).
  destruct (outer_loop lmax 0 (fun l => / 16 * (l + 2) * (l + 2))
     grow0
     ((lmax + 4) / 4) 0 _ G0) as (rt1 & x1 & y1 & z1 & E1 & G1 & K1 & D1).
  assert (R1 : nrange4 0 (lmax + 1) = map (fun i => (2 * 0 + 4 * i)%nat) (seq 0 ((lmax + 4) / 4))).
  { unfold nrange4. f_equal. f_equal. f_equal. lia. }
  rewrite R1. replace (amp_d 0 0) with PI in E1.
  2:{ unfold amp_d. cbn [gamma_up Nat.add]. symmetry. apply sqrt_sqrt. pose proof PI_RGT_0. lra. }
  replace (/ INR (fact (2 * 0 + 0 + 1))) with 1 in E1 by (cbn; field). cbn [Nat.mul Nat.add lf2] in E1. cbn [Nat.mul Nat.add]. rewrite E1.
  destruct (outer_loop lmax 1 (fun l => / 16 * l * (l + 4))
     grow1
     ((lmax + 2) / 4) 0 rt1 G1) as (rt2 & x2 & y2 & z2 & E2 & G2 & K2 & D2).
  assert (R2 : nrange4 2 (lmax + 1) = map (fun i => (2 * 1 + 4 * i)%nat) (seq 0 ((lmax + 2) / 4))).
  { unfold nrange4. f_equal. f_equal. destruct lmax as [|l']; [reflexivity|]. f_equal. lia. }
  rewrite R2. replace (amp_d 1 0) with (/ 2 * PI) in E2.
  2:{ unfold amp_d. cbn [gamma_up Nat.add INR]. pose proof PI_RGT_0. rewrite <- (sqrt_sqrt PI) at 1 by lra. ring. }
  replace (/ INR (fact (2 * 0 + 1 + 1))) with (/ 2) in E2 by (cbn; field).
  replace (lf2 (2 * 0 + 1)) with (4 / 15) in E2 by (cbn; field). cbn [Nat.mul Nat.add] in E2. cbn [Nat.mul Nat.add]. rewrite E2.
  clear E1 E2 R1 R2 x1 y1 z1 x2 y2 z2.
  assert (D : forall p q, (p <= q)%nat -> (2 * (p + q) <= lmax)%nat -> done lmax p q rt2).
  { intros p q Hpq Hl. assert (Hc : exists a, (p + q = 2 * a \/ p + q = 2 * a + 1)%nat).
    { exists ((p + q) / 2)%nat. pose proof (Nat.div_mod_eq (p + q) 2). pose proof (Nat.mod_upper_bound (p + q) 2). lia. }
    destruct Hc as [a [Ha|Ha]].
    - apply (done_keeps _ _ _ rt1); [|exact K2]. replace p with (a - (a - p))%nat by lia. replace q with (a + 0 + (a - p))%nat by lia.
      apply D1; [|lia]. split; [lia|]. apply Nat.div_le_lower_bound; lia.
    - replace p with (a - (a - p))%nat by lia. replace q with (a + 1 + (a - p))%nat by lia.
      apply D2; [|lia]. split; [lia|]. apply Nat.div_le_lower_bound; lia. }
  clear D1 D2. destruct (G2 n) as [H0|H0]; [|exact H0].
  (* the entry is 0: then so is the integral, or it was written *)
  set (l := Nat.sqrt n). pose proof (Nat.sqrt_spec n ltac:(lia)) as Hs. cbv zeta in Hs. fold l in Hs.
  assert (Hl : (l <= lmax)%nat) by nia. set (nu := (n - l * l)%nat). assert (Hnu : (nu <= 2 * l)%nat) by (unfold nu; nia).
  assert (En : n = (l * l + nu)%nat) by (unfold nu; lia). rewrite En, rspec_eq by exact Hnu. rewrite En in H0. clearbody l nu.
  destruct (Nat.even nu) eqn:Ev.
  - apply Nat.even_spec in Ev. destruct Ev as [j Hj]. subst nu.
    destruct (Nat.even (l - j) && Nat.even j)%bool eqn:Eo.
    + apply andb_true_iff in Eo. destruct Eo as [Ei Ej]. apply Nat.even_spec in Ei, Ej. destruct Ei as [p Hp]. destruct Ej as [q Hq].
      assert (El : l = (2 * (p + q))%nat) by lia. rewrite El in *. replace (2 * j)%nat with (4 * q)%nat in * by lia. rewrite Dm0.
      destruct (Nat.le_gt_cases p q) as [Hpq|Hpq].
      * apply (D p q Hpq Hl).
      * rewrite ent0_sym. rewrite (Nat.add_comm p q) in *. apply (D q p); lia.
    + rewrite H0. rewrite Dm_even by (apply Nat.even_spec; now exists j).
      replace (2 * l - 2 * j)%nat with (2 * (l - j))%nat by lia. rewrite !half2. symmetry. apply disk_odd. exact Eo.
  - assert (Ho : Nat.odd nu = true) by (rewrite <- Nat.negb_even, Ev; reflexivity). apply Nat.odd_spec in Ho. destruct Ho as [j Hj]. subst nu.
    destruct (Nat.even (l - j - 1) && Nat.even j)%bool eqn:Eo.
    + apply andb_true_iff in Eo. destruct Eo as [Ei Ej]. apply Nat.even_spec in Ei, Ej. destruct Ei as [p Hp]. destruct Ej as [q Hq].
      assert (El : l = (2 * (p + q) + 1)%nat) by lia. rewrite El in *. replace (2 * j + 1)%nat with (4 * q + 1)%nat in * by lia. rewrite Dm1.
      destruct (Nat.le_gt_cases p q) as [Hpq|Hpq].
      * apply (D p q); lia.
      * rewrite ent1_sym. rewrite (Nat.add_comm p q) in *. apply (D q p); lia.
    + rewrite H0. rewrite Dm_odd by exact Ev.
      replace (2 * l - (2 * j + 1) - 1)%nat with (2 * (l - j - 1))%nat by lia. replace (2 * j + 1 - 1)%nat with (2 * j)%nat by lia. rewrite !half2. symmetry. apply disk_odd. exact Eo.
Qed.
Lemma rT_nth lmax l nu : (l <= lmax)%nat -> (nu <= 2 * l)%nat -> nth (l * l + nu) (rT lmax) 0 = Dm l nu.
Proof.
  intros Hl Hnu. unfold rT. rewrite <- (rspec_eq l nu Hnu), <- (rT_fun_spec lmax) by nia.
  rewrite nth_indep with (d' := rT_fun lmax 0) by (rewrite map_length, seq_length; nia). rewrite map_nth, seq_nth by nia. reflexivity.
Qed.

(** ** linear combinations *)
From Coquelicot Require Import Coquelicot.
From Verif Require Import Proof.LimbDarkGreen.
Definition has_disk (f : R -> R -> R) (v : R) : Prop :=
  exists g : R -> R, (forall t, is_RInt (fun rho => f (rho * cos t) (rho * sin t) * rho) 0 1 (g t)) /\ is_RInt g 0 (2 * PI) v.
Lemma has_disk_eq f v : has_disk f v -> disk_integral f = v.
Proof.
  intros (g & H1 & H2). unfold disk_integral. apply is_RInt_unique. eapply is_RInt_ext; [|exact H2].
  intros t _. symmetry. apply is_RInt_unique. apply H1.
Qed.
Lemma has_disk_ext f f' v : (forall x y, f x y = f' x y) -> has_disk f v -> has_disk f' v.
Proof.
  intros E (g & H1 & H2). exists g. split; [|exact H2]. intros t. eapply is_RInt_ext; [|apply H1]. intros. cbn. now rewrite E.
Qed.
Lemma has_disk_scal c f v : has_disk f v -> has_disk (fun x y => c * f x y) (c * v).
Proof.
  intros (g & H1 & H2). exists (fun t => c * g t). split.
  - intros t. eapply is_RInt_ext; [|apply (rint_scal _ c _ _ _ (c * g t) (H1 t)); reflexivity]. intros x _. cbv beta. apply Rmult_assoc || (match goal with |- ?a = ?b => change (@eq R a b) end; ring).
  - apply (rint_scal g c _ _ _ _ H2). reflexivity.
Qed.
Lemma has_disk_bigsum n (f : nat -> R -> R -> R) (v : nat -> R) : (forall i, (i < n)%nat -> has_disk (f i) (v i)) ->
  has_disk (fun x y => bigsum n (fun i => f i x y)) (bigsum n v).
Proof.
  induction n as [|n IH]; intros H.
  - exists (fun _ => 0). cbn. split.
    + intros t. eapply is_RInt_ext; [|apply (is_RInt_antider (fun _ => 0) (fun _ => 0)); [intros; auto_derive; auto|intros; apply Analysis.cont_const|ring]].
      intros. cbv beta. symmetry. apply Rmult_0_l.
    + apply (is_RInt_antider (fun _ => 0) (fun _ => 0)); [intros; auto_derive; auto|intros; apply Analysis.cont_const|ring].
  - destruct (IH ltac:(intros; apply H; lia)) as (g & G1 & G2). destruct (H n ltac:(lia)) as (h & H1 & H2).
    exists (fun t => g t + h t). cbn [bigsum]. split.
    + intros t. eapply is_RInt_ext; [|apply (is_RInt_plus _ _ _ _ _ _ (G1 t) (H1 t))]. intros x _. unfold plus; cbn. match goal with |- ?a = ?b => change (@eq R a b) end. ring.
    + apply (is_RInt_plus g h _ _ _ _ G2 H2).
Qed.
Lemma has_disk_plus f g v w : has_disk f v -> has_disk g w -> has_disk (fun x y => f x y + g x y) (v + w).
Proof.
  intros (a & A1 & A2) (b & B1 & B2). exists (fun t => a t + b t). split.
  - intros t. eapply is_RInt_ext; [|apply (is_RInt_plus _ _ _ _ _ _ (A1 t) (B1 t))]. intros x _. unfold plus; cbn. match goal with |- ?a = ?b => change (@eq R a b) end. ring.
  - apply (is_RInt_plus a b _ _ _ _ A2 B2).
Qed.
Lemma has_disk_monomial i j k : has_disk (fun x y => x ^ i * y ^ j * zdisk x y ^ k) (ang i j * rad k (i + j)).
Proof.
  exists (fun t => rad k (i + j) * (cos t ^ i * sin t ^ j)). split.
  - intros t. eapply is_RInt_ext; [|apply (rint_scal _ (cos t ^ i * sin t ^ j) _ _ _ _ (rad_is k (i + j))); apply Rmult_comm].
    intros rho _. cbv beta. unfold zdisk.
    replace (1 - (rho * cos t) ^ 2 - (rho * sin t) ^ 2) with (1 - rho ^ 2).
    2:{ pose proof (sin2_cos2 t) as H. unfold Rsqr in H. replace (1 - (rho * cos t) ^ 2 - (rho * sin t) ^ 2) with (1 - rho * rho * (sin t * sin t + cos t * cos t)) by ring. rewrite H. ring. }
    rewrite !Rpow_mult_distr, !pow_add. cbn [pow]. match goal with |- ?a = ?b => change (@eq R a b) end. ring.
  - apply (rint_scal (fun t => cos t ^ i * sin t ^ j) (rad k (i + j)) _ _ _ _ (ang_is i j)). apply Rmult_comm.
Qed.
Lemma has_disk_Dm l nu : has_disk (fun x y => basis_monomial l nu x y (zdisk x y)) (Dm l nu).
Proof.
  destruct (Nat.even nu) eqn:E.
  - rewrite Dm_even by exact E. rewrite disk_monomial. eapply has_disk_ext; [|apply has_disk_monomial].
    intros. unfold basis_monomial. rewrite E. cbn [pow]. ring.
  - rewrite Dm_odd by exact E. rewrite disk_monomial. eapply has_disk_ext; [|apply has_disk_monomial].
    intros. unfold basis_monomial. rewrite E. cbn [pow]. ring.
Qed.
Lemma has_disk_dense L d : has_disk (fun x y => dense_eval L d x y (zdisk x y))
  (bigsum (S L) (fun l => bigsum (2 * l + 1) (fun nu => d (l * l + nu)%nat * Dm l nu))).
Proof.
  unfold dense_eval. apply (has_disk_bigsum (S L) (fun l x y => bigsum (2 * l + 1) (fun nu => d (l * l + nu)%nat * basis_monomial l nu x y (zdisk x y)))).
  intros l _. apply (has_disk_bigsum (2 * l + 1) (fun nu x y => d (l * l + nu)%nat * basis_monomial l nu x y (zdisk x y))).
  intros nu _. apply (has_disk_scal (d (l * l + nu)%nat) (fun x y => basis_monomial l nu x y (zdisk x y))). apply has_disk_Dm.
Qed.
From Verif Require Import Proof.PolyProof.
Lemma rT_dot L (d : nat -> R) : bigsum ((L + 1) * (L + 1)) (fun n => d n * nth n (rT L) 0) = disk_integral (fun x y => dense_eval L d x y (zdisk x y)).
Proof.
  rewrite (has_disk_eq _ _ (has_disk_dense L d)). rewrite (bigsum_square L (fun n => d n * nth n (rT L) 0)).
  apply bigsum_ext. intros l Hl. apply bigsum_ext. intros nu Hnu. rewrite rT_nth by lia. reflexivity.
Qed.
Lemma rT_length L : length (rT L) = ((L + 1) * (L + 1))%nat.
Proof. unfold rT. now rewrite map_length, seq_length. Qed.
