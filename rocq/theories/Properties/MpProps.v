(** C80: higher_precision=True (starry/multiprecision/basis.py) *)
From Coq Require Import Reals Lra Lia ZArith List Bool.
From Verif Require Import Base.RealAux Base.Dict Model.Poly Model.Basis Model.Surface Model.StarryLightCurve Model.MpBasis Model.MpLightCurve
  Spec.BasisSpec Spec.YlmSpec Proof.YlmMore Proof.GreenInv Proof.MpA1 Proof.MpA2 Proof.MpGreen Proof.MpLight.
Import ListNotations.
Open Scope R_scope.

(** the multiprecision A1 and A2_inv are, entry by entry, the ordinary ones *)
Theorem C80_A1 : forall D (r c : nat), (c < (D + 1) * (D + 1))%nat -> mp_A1 (Z.of_nat D) (Z.of_nat r) (Z.of_nat c) = A1 (Z.of_nat D) (Z.of_nat r) (Z.of_nat c).
Proof. exact mp_A1_entry. Qed.
Print Assumptions C80_A1.
Theorem C80_A2_inv : forall D (r c : nat), (c < (D + 1) * (D + 1))%nat -> mp_A2_inv (Z.of_nat D) (Z.of_nat r) (Z.of_nat c) = A2_inv (Z.of_nat D) (Z.of_nat r) (Z.of_nat c).
Proof. exact mp_A2_inv_entry. Qed.
Print Assumptions C80_A2_inv.
(** the division by an infinite factorial never leaves an infinite coefficient *)
Theorem C80_finite : forall l m j k p q, (0 <= m <= l)%Z -> (0 <= j <= m)%Z -> (0 <= k <= l - m)%Z -> (0 <= q <= p)%Z -> (p <= k)%Z ->
  (p mod 2 = 0)%Z -> (q mod 2 = 0)%Z -> (k mod 2 = 0)%Z -> mp_A l m <> None /\ mp_B l m j k <> None /\ mp_C p q k <> None.
Proof.
  intros l m j k p q Hm Hj Hk Hq Hp Ep Eq Ek. rewrite mp_A_core, mp_B_core by lia. rewrite mp_C_core; [repeat split; discriminate|lia|lia|lia|].
  exists (k / 2)%Z, (p / 2)%Z, (q / 2)%Z. pose proof (Z.div_mod k 2 ltac:(lia)). pose proof (Z.div_mod p 2 ltac:(lia)). pose proof (Z.div_mod q 2 ltac:(lia)). lia.
Qed.
Print Assumptions C80_finite.
(** A2, built one column at a time from small linear systems, never fails, whatever the order in which Python lists a set, and
    is exactly the inverse of A2_inv *)
Theorem C80_A2_is_inverse : forall D M, mp_A2_returns D M <-> right_inverse ((D + 1) * (D + 1)) (A2_inv (Z.of_nat D)) M.
Proof. exact mp_A2_iff. Qed.
Print Assumptions C80_A2_is_inverse.
Theorem C80_A2_total : forall D, exists M, mp_A2_returns D M /\
  forall M', mp_A2_returns D M' -> forall r c, (r < (D + 1) * (D + 1))%nat -> (c < (D + 1) * (D + 1))%nat -> M' (Z.of_nat r) (Z.of_nat c) = M (Z.of_nat r) (Z.of_nat c).
Proof.
  intros D. set (N := ((D + 1) * (D + 1))%nat).
  destruct (finite_choice (fun c d => forall r, (r < N)%nat -> bigsum N (fun k => A2_inv (Z.of_nat D) (Z.of_nat r) (Z.of_nat k) * d k) = if Nat.eqb r c then 1 else 0) N) as [f Hf].
  { intros c _. destruct (Sp_all D (fun r => if Nat.eqb r c then 1 else 0)) as (d & Hd). exists d. exact Hd. }
  assert (HR : right_inverse N (A2_inv (Z.of_nat D)) (fun k c => f (Z.to_nat c) (Z.to_nat k))).
  { intros r c Hr Hc. rewrite <- (Hf c Hc r Hr). apply bigsum_ext. intros k _. rewrite !Nat2Z.id. reflexivity. }
  exists (fun k c => f (Z.to_nat c) (Z.to_nat k)). split; [now apply mp_A2_iff|]. intros M' HM'. apply mp_A2_iff in HM'. exact (right_inverse_unique D M' _ HM' HR).
Qed.
Print Assumptions C80_A2_total.
(** every call of the system solver is legitimate: the indices are distinct, in range and never empty, every set of keys that
    meets the sets found is among them, and for every listing of their keys there are at least as many equations as unknowns *)
Theorem C80_closed_subsets : forall k, let I := mp_indices k in let n := ((Nat.sqrt k + 1) * (Nat.sqrt k + 1))%nat in
  NoDup I /\ I <> [] /\ (forall i, In i I -> (i < n)%nat) /\
  (forall i, (i < n)%nat -> In (ptilde (Z.of_nat k)) (keys (gtilde (Z.of_nat i))) -> In i I) /\
  (forall i j p, In i I -> (j < n)%nat -> In p (keys (gtilde (Z.of_nat i))) -> In p (keys (gtilde (Z.of_nat j))) -> In j I) /\
  forall powers, union_order I powers -> (length I <= length powers)%nat.
Proof.
  intros k I n. split; [exact (I_nodup k)|split; [exact (I_nonempty k)|split; [exact (I_bound k)|split; [exact (proj1 (proj2 (I_facts k)))|split; [exact (proj2 (proj2 (I_facts k)))|]]]]].
  intros powers HP. apply (injective_le _ _ (mp_system I powers)). exact (system_injective k powers HP).
Qed.
Print Assumptions C80_closed_subsets.
(** so the light curve and the radial velocity of a surface do not depend on the flag *)
Theorem C80_light_curve : forall as_euler eps low high A2 A1m A2m s r x y z theta,
  right_inverse ((surf_deg s + 1) * (surf_deg s + 1)) (A2_inv (Z.of_nat (surf_deg s))) (A2 (surf_deg s)) ->
  A1m (surf_ydeg s) = mp_A1 (Z.of_nat (surf_ydeg s)) -> mp_A2_returns (surf_deg s) (A2m (surf_deg s)) ->
  surface_light_curve_hp as_euler eps low high A1m A2m s r x y z theta = surface_light_curve as_euler eps low high A2 s r x y z theta.
Proof. intros as_euler eps low high A2 A1m A2m s r x y z theta H H1. exact (light_hp as_euler eps low high A2 A1m A2m s H1 r x y z theta H). Qed.
Print Assumptions C80_light_curve.
Theorem C80_radial_velocity : forall as_euler eps low high A2 A1m A2m s vdeg r x y z theta, surf_vdeg s = Some vdeg ->
  right_inverse ((surf_deg s + vdeg + 1) * (surf_deg s + vdeg + 1)) (A2_inv (Z.of_nat (surf_deg s + vdeg))) (A2 (surf_deg s + vdeg)%nat) ->
  A1m (surf_ydeg s) = mp_A1 (Z.of_nat (surf_ydeg s)) -> mp_A2_returns (surf_deg s + vdeg) (A2m (surf_deg s + vdeg)%nat) ->
  surface_radial_velocity_hp as_euler eps low high A1m A2m s r x y z theta = surface_radial_velocity as_euler eps low high A2 s r x y z theta.
Proof. intros as_euler eps low high A2 A1m A2m s vdeg r x y z theta Hv H H1. exact (rv_hp as_euler eps low high A2 A1m A2m s H1 vdeg r x y z theta Hv H). Qed.
Print Assumptions C80_radial_velocity.
(** the shared cache: whatever was asked before, each call returns what its function returns *)
Theorem C80_cache : forall build calls, fst (run_calls build calls []) = map (fun c => build (fst c) (snd c)) calls.
Proof. intros build calls. apply run_calls_ok. intros l nm M H. discriminate H. Qed.
Print Assumptions C80_cache.
(** a system with three unknowns *)
Example C80_sat : mp_indices 10 = [10; 2; 14]%nat.
Proof. vm_compute. reflexivity. Qed.
Example C80_sat_returns : exists A2m : nat -> matrix, forall D, (D < 9)%nat -> mp_A2_returns D (A2m D).
Proof.
  assert (K : forall n, exists A2m : nat -> matrix, forall D, (D < n)%nat -> mp_A2_returns D (A2m D)).
  { induction n as [|n (A & IH)]; [exists (fun _ _ _ => 0); intros; lia|]. destruct (C80_A2_total n) as (B & HB & _). exists (fun D => if Nat.eqb D n then B else A D).
    intros D HD. destruct (Nat.eqb_spec D n) as [->|]; [exact HB|apply IH; lia]. }
  apply K.
Qed.
