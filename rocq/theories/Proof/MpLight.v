(** higher_precision=True changes nothing but the rounding. *)
From Coq Require Import Reals Lra Lia ZArith List Bool Arith.
From Verif Require Import Base.RealAux Base.Dict Model.Poly Model.Basis Model.Rotation Model.Solution Model.SolutionVector
  Model.Ylm Model.RvMap Model.Surface Model.StarryLightCurve Model.MpBasis Model.MpLightCurve Spec.BasisSpec Spec.YlmSpec
  Proof.GreenInv Proof.MpA1 Proof.MpA2.
Import ListNotations.
Open Scope R_scope.

Lemma right_inverse_unique D M M' : right_inverse ((D + 1) * (D + 1)) (A2_inv (Z.of_nat D)) M -> right_inverse ((D + 1) * (D + 1)) (A2_inv (Z.of_nat D)) M' ->
  forall r c, (r < (D + 1) * (D + 1))%nat -> (c < (D + 1) * (D + 1))%nat -> M (Z.of_nat r) (Z.of_nat c) = M' (Z.of_nat r) (Z.of_nat c).
Proof.
  intros H H' r c Hr Hc. assert (E : M (Z.of_nat r) (Z.of_nat c) - M' (Z.of_nat r) (Z.of_nat c) = 0); [|lra].
  apply (A2_inv_injective D (fun n => M (Z.of_nat n) (Z.of_nat c) - M' (Z.of_nat n) (Z.of_nat c))); [|exact Hr]. intros q Hq.
  rewrite (bigsum_ext _ _ (fun n => A2_inv (Z.of_nat D) (Z.of_nat q) (Z.of_nat n) * M (Z.of_nat n) (Z.of_nat c) + -1 * (A2_inv (Z.of_nat D) (Z.of_nat q) (Z.of_nat n) * M' (Z.of_nat n) (Z.of_nat c)))) by (intros; ring).
  rewrite bigsum_plus, bigsum_scal, (H q c Hq Hc), (H' q c Hq Hc). ring.
Qed.
Lemma A1m_mul_eq A1m deg y : (forall r c, (r < (deg + 1) * (deg + 1))%nat -> (c < (deg + 1) * (deg + 1))%nat -> A1m deg (Z.of_nat r) (Z.of_nat c) = A1 (Z.of_nat deg) (Z.of_nat r) (Z.of_nat c)) ->
  A1m_mul A1m deg y = A1_mul deg y.
Proof. intros H. unfold A1m_mul, A1_mul. cbv zeta. apply map_ext_in. intros r Hr. apply in_seq in Hr. apply bigsum_ext. intros n Hn. rewrite H by lia. reflexivity. Qed.
Lemma vec_mat_eq N v M M' : (forall r c, (r < N)%nat -> (c < N)%nat -> M (Z.of_nat r) (Z.of_nat c) = M' (Z.of_nat r) (Z.of_nat c)) -> vec_mat N v M = vec_mat N v M'.
Proof. intros H. unfold vec_mat. apply map_ext_in. intros c Hc. apply in_seq in Hc. apply bigsum_ext. intros n Hn. rewrite H by lia. reflexivity. Qed.
Section HP.
Variables (as_euler : R * R * R -> R * R * R) (eps : R) (low high : list (R * R)) (A2 A1m A2m : nat -> matrix) (s : surface).
Hypothesis HA1 : A1m (surf_ydeg s) = mp_A1 (Z.of_nat (surf_ydeg s)).
Lemma HA1e r c : (r < (surf_ydeg s + 1) * (surf_ydeg s + 1))%nat -> (c < (surf_ydeg s + 1) * (surf_ydeg s + 1))%nat -> A1m (surf_ydeg s) (Z.of_nat r) (Z.of_nat c) = A1 (Z.of_nat (surf_ydeg s)) (Z.of_nat r) (Z.of_nat c).
Proof. intros Hr Hc. rewrite HA1. now apply mp_A1_entry. Qed.
Lemma design_hp D g : right_inverse ((D + 1) * (D + 1)) (A2_inv (Z.of_nat D)) (A2 D) -> mp_A2_returns D (A2m D) -> design_matrix eps low high A2m D g = design_matrix eps low high A2 D g.
Proof.
  intros H H'. apply mp_A2_iff in H'. unfold design_matrix. destruct g as [g|]; [|reflexivity]. destruct (starry_solution eps low high D (og_b g) (og_r g)) as [sT|e]; [|reflexivity]. cbn [rbind].
  rewrite (vec_mat_eq _ sT (A2m D) (A2 D)); [reflexivity|]. now apply right_inverse_unique.
Qed.
Lemma flux_of_hp_eq design ry : flux_of_hp A1m s design ry = flux_of s design ry.
Proof. unfold flux_of_hp, flux_of. rewrite (A1m_mul_eq A1m (surf_ydeg s) ry HA1e). reflexivity. Qed.
Lemma light_hp r x y z theta : right_inverse ((surf_deg s + 1) * (surf_deg s + 1)) (A2_inv (Z.of_nat (surf_deg s))) (A2 (surf_deg s)) -> mp_A2_returns (surf_deg s) (A2m (surf_deg s)) ->
  surface_light_curve_hp as_euler eps low high A1m A2m s r x y z theta = surface_light_curve as_euler eps low high A2 s r x y z theta.
Proof.
  intros H H'. unfold surface_light_curve_hp, surface_light_curve. cbv zeta. destruct r as [r|].
  - destruct (surf_ydeg s =? 0)%nat; [reflexivity|]. rewrite (design_hp _ _ H H'). destruct (design_matrix eps low high A2 (surf_deg s) _) as [d|]; [|reflexivity]. cbn [rbind].
    destruct (rotated_y as_euler s theta _) as [ry|]; [|reflexivity]. cbn [rbind]. apply flux_of_hp_eq.
  - rewrite (design_hp _ _ H H'). destruct (design_matrix eps low high A2 (surf_deg s) _) as [d|]; [|reflexivity]. cbn [rbind].
    destruct (rotated_y as_euler s theta _) as [ry|]; [|reflexivity]. cbn [rbind]. apply flux_of_hp_eq.
Qed.
Lemma rv_hp vdeg r x y z theta : surf_vdeg s = Some vdeg -> right_inverse ((surf_deg s + vdeg + 1) * (surf_deg s + vdeg + 1)) (A2_inv (Z.of_nat (surf_deg s + vdeg))) (A2 (surf_deg s + vdeg)%nat) ->
  mp_A2_returns (surf_deg s + vdeg) (A2m (surf_deg s + vdeg)%nat) ->
  surface_radial_velocity_hp as_euler eps low high A1m A2m s r x y z theta = surface_radial_velocity as_euler eps low high A2 s r x y z theta.
Proof.
  intros Hv H H'. unfold surface_radial_velocity_hp, surface_radial_velocity. rewrite Hv. cbv zeta. rewrite (design_hp _ _ H H').
  destruct (design_matrix eps low high A2 _ _) as [d|]; [|reflexivity]. cbn [rbind]. destruct (rotated_y as_euler s theta _) as [ry|]; [|reflexivity]. cbn [rbind].
  rewrite (A1m_mul_eq A1m (surf_ydeg s) ry HA1e). reflexivity.
Qed.
End HP.

(** * The cache *)
Lemma mp_key_eqb_eq a b : mp_key_eqb a b = true <-> a = b.
Proof.
  destruct a as [a [|]], b as [b [|]]; unfold mp_key_eqb; cbn [fst snd mp_name_eqb]; rewrite ?andb_true_r, ?andb_false_r, ?Nat.eqb_eq; split; intros H; try discriminate; try (now subst); try (now injection H).
Qed.
Definition coherent (build : mp_name -> nat -> matrix) (cache : mp_cache) : Prop := forall l nm M, dget mp_key_eqb (l, nm) cache = Some M -> M = build nm l.
Lemma get_A_ok build nm l cache : coherent build cache -> fst (get_A build nm l cache) = build nm l /\ coherent build (snd (get_A build nm l cache)).
Proof.
  intros H. unfold get_A. destruct (dget mp_key_eqb (l, nm) cache) as [M|] eqn:E; cbn [fst snd]; [split; [now apply H|exact H]|]. split; [reflexivity|].
  intros l' nm' M'. unfold dset. rewrite (dget_dupd mp_key_eqb mp_key_eqb_eq). destruct (mp_key_eqb (l', nm') (l, nm)) eqn:E'; [|apply H].
  apply mp_key_eqb_eq in E'. injection E' as -> ->. intros H'. now injection H' as <-.
Qed.
Lemma run_calls_ok build calls : forall cache, coherent build cache -> fst (run_calls build calls cache) = map (fun c => build (fst c) (snd c)) calls.
Proof.
  induction calls as [|[nm l] calls IH]; intros cache H; [reflexivity|]. cbn [run_calls map fst snd]. destruct (get_A_ok build nm l cache H) as [E1 E2].
  destruct (get_A build nm l cache) as [M cache']. cbn [fst snd] in E1, E2. specialize (IH cache' E2). destruct (run_calls build calls cache') as [Ms c]. cbn [fst] in *. now rewrite E1, IH.
Qed.
