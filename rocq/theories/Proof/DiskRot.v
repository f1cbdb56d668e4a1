(** Integrals over the disk of polynomials in x, y, z do not change under rotation. *)
From Coq Require Import Reals Lra Lia ZArith List Bool Arith Psatz.
From Coquelicot Require Import Coquelicot.
From Verif Require Import Base.RealAux Base.Analysis Spec.PolySpec Spec.BasisSpec Spec.DiskSpec Proof.DiskProof Proof.RTProof Proof.PolyProof Proof.YlmMore Proof.LimbDarkGreen.
Import ListNotations.
Open Scope R_scope.

Definition disk_cont (f : R -> R -> R) : Prop :=
  exists g : R -> R, (forall t, is_RInt (fun rho => f (rho * cos t) (rho * sin t) * rho) 0 1 (g t)) /\ forall t, continuous g t.
Lemma disk_cont_plus f g : disk_cont f -> disk_cont g -> disk_cont (fun x y => f x y + g x y).
Proof.
  intros (a & A1 & A2) (b & B1 & B2). exists (fun t => a t + b t). split.
  - intros t. eapply is_RInt_ext; [|apply (is_RInt_plus _ _ _ _ _ _ (A1 t) (B1 t))]. intros x _. unfold plus; cbn. match goal with |- ?a = ?b => change (@eq R a b) end. ring.
  - intros t. apply (continuous_plus a b t (A2 t) (B2 t)).
Qed.
Lemma disk_cont_scal c f : disk_cont f -> disk_cont (fun x y => c * f x y).
Proof.
  intros (a & A1 & A2). exists (fun t => c * a t). split.
  - intros t. eapply is_RInt_ext; [|apply (rint_scal _ c _ _ _ (c * a t) (A1 t)); reflexivity]. intros x _. cbv beta. match goal with |- ?a = ?b => change (@eq R a b) end. ring.
  - intros t. apply (continuous_mult (fun _ => c) a t (continuous_const _ _) (A2 t)).
Qed.
Lemma disk_cont_zero : disk_cont (fun _ _ => 0).
Proof.
  exists (fun _ => 0). split.
  - intros t. eapply is_RInt_ext; [|apply (is_RInt_antider (fun _ => 0) (fun _ => 0)); [intros; auto_derive; auto|intros; apply Analysis.cont_const|ring]].
    intros. cbv beta. symmetry. apply Rmult_0_l.
  - intros t. apply continuous_const.
Qed.
Lemma disk_cont_ext f f' : (forall x y, f x y = f' x y) -> disk_cont f -> disk_cont f'.
Proof. intros E (g & H1 & H2). exists g. split; [|exact H2]. intros t. eapply is_RInt_ext; [|apply H1]. intros. cbn. now rewrite E. Qed.
Lemma disk_cont_bigsum n (f : nat -> R -> R -> R) : (forall i, (i < n)%nat -> disk_cont (f i)) -> disk_cont (fun x y => bigsum n (fun i => f i x y)).
Proof.
  induction n as [|n IH]; intros H; [exact disk_cont_zero|]. cbn [bigsum].
  apply (disk_cont_plus (fun x y => bigsum n (fun i => f i x y)) (f n)); [apply IH; intros; apply H; lia|apply H; lia].
Qed.
Lemma disk_cont_monomial i j k : disk_cont (fun x y => x ^ i * y ^ j * zdisk x y ^ k).
Proof.
  exists (fun t => rad k (i + j) * (cos t ^ i * sin t ^ j)). split.
  - intros t. eapply is_RInt_ext; [|apply (rint_scal _ (cos t ^ i * sin t ^ j) _ _ _ _ (rad_is k (i + j))); apply Rmult_comm].
    intros rho _. cbv beta. unfold zdisk.
    replace (1 - (rho * cos t) ^ 2 - (rho * sin t) ^ 2) with (1 - rho ^ 2).
    2:{ pose proof (sin2_cos2 t) as H. unfold Rsqr in H. replace (1 - (rho * cos t) ^ 2 - (rho * sin t) ^ 2) with (1 - rho * rho * (sin t * sin t + cos t * cos t)) by ring. rewrite H. ring. }
    rewrite !Rpow_mult_distr, !pow_add. cbn [pow]. match goal with |- ?a = ?b => change (@eq R a b) end. ring.
  - intros t. apply (continuous_mult (fun _ => rad k (i + j)) (fun t => cos t ^ i * sin t ^ j) t (continuous_const _ _) (ang_cont i j t)).
Qed.
Lemma disk_cont_dense L d : disk_cont (fun x y => dense_eval L d x y (zdisk x y)).
Proof.
  unfold dense_eval. apply (disk_cont_bigsum (S L) (fun l x y => bigsum (2 * l + 1) (fun nu => d (l * l + nu)%nat * basis_monomial l nu x y (zdisk x y)))).
  intros l _. apply (disk_cont_bigsum (2 * l + 1) (fun nu x y => d (l * l + nu)%nat * basis_monomial l nu x y (zdisk x y))).
  intros nu _. apply (disk_cont_scal (d (l * l + nu)%nat) (fun x y => basis_monomial l nu x y (zdisk x y))).
  destruct (Nat.even nu) eqn:E.
  - eapply disk_cont_ext; [|apply (disk_cont_monomial ((2 * l - nu) / 2) (nu / 2) 0)]. intros. unfold basis_monomial. rewrite E. cbn [pow]. ring.
  - eapply disk_cont_ext; [|apply (disk_cont_monomial ((2 * l - nu - 1) / 2) ((nu - 1) / 2) 1)]. intros. unfold basis_monomial. rewrite E. cbn [pow]. ring.
Qed.
Lemma periodic_shift (g : R -> R) a : (forall t, continuous g t) -> (forall t, g (t + 2 * PI) = g t) ->
  RInt (fun t => g (t + a)) 0 (2 * PI) = RInt g 0 (2 * PI).
Proof.
  intros Hc Hp. assert (Hi : forall u v, ex_RInt g u v) by (intros; apply (ex_RInt_continuous (V := R_CompleteNormedModule)); intros; apply Hc).
  assert (Sh : forall u v w, RInt (fun t => g (t + w)) u v = RInt g (u + w) (v + w)).
  { intros u v w. pose proof (RInt_comp_lin g 1 w u v (Hi _ _)) as H. rewrite !Rmult_1_l in H. rewrite <- H. apply RInt_ext. intros t _. unfold scal; cbn; unfold mult; cbn. rewrite !Rmult_1_l. reflexivity. }
  rewrite (Sh 0 (2 * PI) a), Rplus_0_l. rewrite (Rplus_comm (2 * PI) a).
  rewrite <- (RInt_Chasles g a (2 * PI) (a + 2 * PI)) by apply Hi.
  assert (E : RInt g (2 * PI) (a + 2 * PI) = RInt g 0 a).
  { pose proof (Sh 0 a (2 * PI)) as H. rewrite Rplus_0_l in H. rewrite <- H. apply RInt_ext. intros t _. apply Hp. }
  rewrite E. pose proof (RInt_Chasles g 0 a (2 * PI) (Hi _ _) (Hi _ _)) as H. rewrite <- H. apply plus_comm.
Qed.
Lemma disk_rot f a : disk_cont f -> disk_integral (fun x y => f (x * cos a - y * sin a) (x * sin a + y * cos a)) = disk_integral f.
Proof.
  intros (g & G1 & G2). unfold disk_integral.
  assert (Hp : forall t, g (t + 2 * PI) = g t).
  { intros t. apply (rint_det _ _ _ _ _ (G1 (t + 2 * PI))). eapply is_RInt_ext; [|apply (G1 t)]. intros rho _. cbv beta. rewrite cos_plus, sin_plus, cos_2PI, sin_2PI.
    match goal with |- ?a = ?b => change (@eq R a b) end. f_equal. f_equal; ring. }
  rewrite (RInt_ext _ (fun t => g (t + a))).
  2:{ intros t _. apply is_RInt_unique. eapply is_RInt_ext; [|apply (G1 (t + a))]. intros rho _. cbv beta. rewrite cos_plus, sin_plus. match goal with |- ?a = ?b => change (@eq R a b) end. f_equal. f_equal; ring. }
  rewrite (periodic_shift g a G2 Hp). apply RInt_ext. intros t _. symmetry. apply is_RInt_unique, G1.
Qed.
