(** C81: convergence with the order of the Gauss-Legendre rules (core/limb_dark.py, starry/core/solution.py, starry/light_curves.py).
    [gauss_legendre n rule] states what scipy.special.roots_legendre(n) returns.  The machine epsilon only serves as a guard:
    it has to be small enough for the nodes of the rule. *)
From Coq Require Import Reals Lra Lia ZArith List Bool Arith.
From Coquelicot Require Import Coquelicot.
From Verif Require Import Base.RealAux Base.Dict Model.LimbDark Model.Poly Model.Basis Model.S2fft Model.Rotation Model.SolutionVector Model.Ylm Model.Surface Model.StarryLightCurve
  Spec.LimbDarkSpec Spec.HarmonicSpec Spec.RotationSpec Spec.BasisSpec Spec.DiskSpec Spec.OccultSpec Spec.YlmSpec Spec.SurfaceSpec Spec.SystemSpec Spec.SkySpec Spec.QuadSpec
  Proof.Euler Proof.GaussLegendre Proof.OrderLimit Proof.EvenError Proof.OddLimit Proof.MapLimit Properties.OccultProps Properties.SkyProps.
Import ListNotations.
Open Scope R_scope.

(** there is a rule of every order *)
Theorem C81_gauss_legendre_exists : forall n, exists rule, gauss_legendre n rule.
Proof. exact gauss_exists. Qed.
Print Assumptions C81_gauss_legendre_exists.

(** light curves of limb-darkened stars converge to the visible fraction of the flux, whatever is hidden (but for the
    concentric occultor of the same size) *)
Theorem C81_limb_dark : forall u b r, disk_flux u <> 0 -> ~ (Rabs b = 0 /\ Rabs r = 1) -> forall delta, 0 < delta ->
  exists N, forall n rule, (N <= n)%nat -> gauss_legendre n rule -> exists eps0, 0 < eps0 /\ forall eps, 0 < eps <= eps0 ->
  Rabs (light_curve eps rule u b r - (occulted_flux u (Rabs b) (Rabs r) / disk_flux u - 1)) <= delta.
Proof. exact light_curve_limit. Qed.
Print Assumptions C81_limb_dark.

(** the rule of the polynomial entries (nu even) of the solution vector: an explicit bound for every number m of nodes *)
Theorem C81_polynomial_entries : forall m rule b r l nu, gauss_legendre m rule -> (0 < m)%nat -> 0 <= b -> 0 <= r -> b < 1 + r -> r < 1 + b -> (nu <= 2 * l)%nat -> Nat.even nu = true ->
  Rabs (green_error rule b r l nu) <= even_bound m b r l nu.
Proof. exact even_error. Qed.
Print Assumptions C81_polynomial_entries.
(** with the 20 nodes that the code uses (order >= 20): 1e-14 for maps of degree 5 *)
Theorem C81_polynomial_entries_20 : forall b r l nu, 0 <= b -> 0 <= r -> r <= 1 -> b < 1 + r -> r < 1 + b -> (l <= 5)%nat -> (nu <= 2 * l)%nat -> even_bound 20 b r l nu <= / 10 ^ 14.
Proof. exact even_bound_small. Qed.
Print Assumptions C81_polynomial_entries_20.

(** the entries of the solution vector: those with nu odd converge to the visible flux of their Green's function, those with
    nu even, whose rule does not grow beyond 20 nodes, come as close as the bound *)
Theorem C81_solution_vector : forall lmax b r l nu f, (l <= lmax)%nat -> (nu <= 2 * l)%nat -> lmax <> 0%nat -> green_function l nu f -> Rabs b < 1 + Rabs r -> Rabs r < 1 + Rabs b -> forall delta, 0 < delta ->
  exists N, forall n low high, (N <= n)%nat -> gauss_legendre (Nat.min n 20) low -> gauss_legendre n high -> exists eps0, 0 < eps0 /\ forall eps, 0 < eps <= eps0 ->
  exists s, starry_solution eps low high lmax b r = Ok s /\
  Rabs (nth (l * l + nu) s 0 - flux_around 0 (Rabs b) (Rabs r) f) <= if Nat.even nu then even_bound 20 (Rabs b) (Rabs r) l nu else delta.
Proof. exact entry_limit. Qed.
Print Assumptions C81_solution_vector.

(** the light curve of a map *)
Theorem C81_light_curve : forall as_euler A2 s theta x y, zyz_euler as_euler -> wf_ylm (s_y s) -> surf_ydeg s <> 0%nat -> right_inverse (ncoef (surf_deg s)) (A2_inv (Z.of_nat (surf_deg s))) (A2 (surf_deg s)) ->
  let I := seen_intensity (y_data (s_y s)) (s_u s) (s_inc s) (s_obl s) theta in let b := sqrt (x ^ 2 + y ^ 2) in
  exists g, green_coefficients (surf_deg s) g (turned x y I) /\
  forall r z, 0 <= r -> b < 1 + r -> r < 1 + b -> 0 < z -> forall delta, 0 < delta ->
  exists N, forall n low high, (N <= n)%nat -> gauss_legendre (Nat.min n 20) low -> gauss_legendre n high -> exists eps0, 0 < eps0 /\ forall eps, 0 < eps <= eps0 ->
  exists f, surface_light_curve as_euler eps low high A2 s (Some r) (Some x) (Some y) (Some z) theta = Ok f /\
  Rabs (f - s_amplitude s * unhidden_flux x y r I * (PI / ld_flux (s_u s))) <= delta + Rabs (s_amplitude s * (PI / ld_flux (s_u s))) * even_bounds 20 (surf_deg s) g b r.
Proof. exact map_limit. Qed.
Print Assumptions C81_light_curve.

(** rules of the orders asked for exist; the map and the matrices are those of C78_sat *)
Example C81_sat : disk_flux [0.4; 0.3] <> 0 /\ ~ (Rabs (1 / 2) = 0 /\ Rabs (1 / 4) = 1) /\ green_function 0 0 (fun _ _ => 1) /\ (exists low high, gauss_legendre (Nat.min 30 20) low /\ gauss_legendre 30 high) /\
  zyz_euler rotvec_zyz /\ wf_ylm (s_y C78_map) /\ surf_ydeg C78_map <> 0%nat.
Proof.
  split; [exact (proj1 (proj2 C75_satisfiable))|]. split; [rewrite !Rabs_right by lra; lra|]. split; [exact (proj1 C77_sat)|].
  split. { destruct (gauss_exists (Nat.min 30 20)) as (a & Ha). destruct (gauss_exists 30) as (c & Hc). exists a, c. split; assumption. }
  split; [exact (proj1 C78_sat)|]. split; [exact (proj1 (proj2 C78_sat))|exact (proj1 (proj2 (proj2 C78_sat)))].
Qed.
