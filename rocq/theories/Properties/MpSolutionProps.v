(** C82: the reference solution vectors of starry/multiprecision/solution.py.  [quad] is mp.quad, taken to be exact. *)
From Coq Require Import Reals Lra Lia ZArith List Bool Arith.
From Coquelicot Require Import Coquelicot.
From Verif Require Import Base.RealAux Model.LimbDark Model.Poly Model.MpSolution
  Spec.LimbDarkSpec Spec.BasisSpec Spec.DiskSpec Spec.OccultSpec Spec.SkySpec Spec.QuadSpec
  Proof.MpSolutionProof Proof.MpLimbDark Properties.SkyProps.
Import ListNotations.
Open Scope R_scope.

(** entry l^2 + nu of sT is the flux of the n-th Green's basis function over the part of the unit disk that the occultor leaves free *)
Theorem C82_solution_vector : forall quad lmax b r, exact_quad quad -> b <> 0 -> r <> 0 -> Rabs b < 1 + Rabs r -> Rabs r < 1 + Rabs b ->
  exists s, mp_sT quad lmax b r = Ok s /\ length s = ((lmax + 1) * (lmax + 1))%nat /\ forall l nu f, (l <= lmax)%nat -> (nu <= 2 * l)%nat -> green_function l nu f -> nth (l * l + nu) s 0 = flux_around 0 (Rabs b) (Rabs r) f.
Proof. exact mp_entries. Qed.
Print Assumptions C82_solution_vector.
(** concentric or point-like occultors raise *)
Theorem C82_division_by_zero : forall quad lmax b r, b = 0 \/ r = 0 -> mp_sT quad lmax b r = Err ZeroDivisionError.
Proof. exact mp_zero. Qed.
Print Assumptions C82_division_by_zero.
(** without an occultation, or with a total one, the result is wrong: the occultor's area is subtracted all the same (the true values are PI and 0) *)
Theorem C82_outside_refuted : forall quad lmax b r, exact_quad quad -> b <> 0 -> r <> 0 -> 1 + Rabs r <= Rabs b \/ 1 + Rabs b <= Rabs r -> exists s, mp_sT quad lmax b r = Ok s /\ nth 0 s 0 = PI * (1 - r ^ 2).
Proof. exact mp_outside. Qed.
Print Assumptions C82_outside_refuted.
(** the limb-darkened star: with the coefficients of a law in the Green's basis the vector gives the visible flux, for every occultor off the centre *)
Theorem C82_limb_dark : forall quad u b r, exact_quad quad -> 0 < b -> 0 < r ->
  exists s, mp_limb_dark quad (length u) b r = Ok s /\ length s = S (length u) /\ bigsum (S (length u)) (fun n => nth n (greens_basis_transform u) 0 * nth n s 0) = occulted_flux u b r.
Proof. exact mp_limb_dark_flux. Qed.
Print Assumptions C82_limb_dark.
Theorem C82_limb_dark_division_by_zero : forall quad n r b, (2 <= n)%nat -> b = 0 \/ r = 0 -> mp_limb_dark quad n b r = Err ZeroDivisionError.
Proof. exact mp_limb_dark_zero. Qed.
Print Assumptions C82_limb_dark_division_by_zero.
(** get_sT returns what sT returns, whatever was asked before *)
Theorem C82_cache_history : forall quad calls l b r, fst (mp_get_sT quad (fold_left (fun c lbr => let '(l, b, r) := lbr in snd (mp_get_sT quad c l b r)) calls []) l b r) = mp_sT quad l b r.
Proof. exact get_sT_history. Qed.
Print Assumptions C82_cache_history.

(** the integral itself is an exact integrator *)
Example C82_sat : exact_quad (fun f lo hi => RInt f lo hi) /\ (1 / 2 <> 0 /\ 1 / 4 <> 0 /\ Rabs (1 / 2) < 1 + Rabs (1 / 4) /\ Rabs (1 / 4) < 1 + Rabs (1 / 2)) /\ green_function 0 0 (fun _ _ => 1).
Proof.
  split; [intros f lo hi v H; now apply is_RInt_unique|]. rewrite !Rabs_right by lra. split; [repeat split; lra|exact (proj1 C77_sat)].
Qed.
