(** Properties of starry/core/solution.py. *)
From Coq Require Import Reals Lra Lia ZArith List Bool Arith.
From Verif Require Import Base.RealAux Spec.PolySpec Spec.BasisSpec Spec.DiskSpec Model.Solution Proof.RTProof.
Import ListNotations.
Open Scope R_scope.

(** C52: entry (l, m = nu - l) of rT(lmax) is the integral over the unit disk of the (l, m) polynomial
    basis function, z being the height of the visible hemisphere. *)
Theorem C52_rT_is_disk_integral lmax l nu : (l <= lmax)%nat -> (nu <= 2 * l)%nat ->
  nth (l * l + nu) (rT lmax) 0 = disk_integral (fun x y => basis_monomial l nu x y (zdisk x y)).
Proof. exact (rT_nth lmax l nu). Qed.
Print Assumptions C52_rT_is_disk_integral.
(** hence the dot product with rT is the flux of the polynomial map *)
Theorem C52_flux lmax (p : list R) :
  bigsum ((lmax + 1) * (lmax + 1)) (fun n => nth n p 0 * nth n (rT lmax) 0) =
  disk_integral (fun x y => dense_eval lmax (fun n => nth n p 0) x y (zdisk x y)).
Proof. exact (rT_dot lmax (fun n => nth n p 0)). Qed.
Print Assumptions C52_flux.
Theorem C52_length lmax : length (rT lmax) = ((lmax + 1) * (lmax + 1))%nat.
Proof. exact (rT_length lmax). Qed.
Print Assumptions C52_length.
(** the uniform and linear terms: pi and 2 pi / 3 *)
Example C52_example : nth 0 (rT 1) 0 = PI /\ nth 2 (rT 1) 0 = 2 / 3 * PI.
Proof. split; cbn; ring. Qed.
