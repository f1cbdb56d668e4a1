(** Model of starry/ylm.py:222-297: Bp, spot_profile, ylm_spot. *)
From Coq Require Import Reals Lra Lia ZArith List Bool Arith.
From Verif Require Import Base.RealAux Base.Dict Model.Poly Model.Basis Model.S2fft Model.Rotation Model.Ylm.
Import ListNotations.
Open Scope R_scope.

(** ylm.py:229-233: the default smoothing *)
Definition bp_smoothing (ydeg : nat) : R := if (ydeg <? 4)%nat then 0.5 else 2 / INR ydeg.
(** jnp.linspace(0, pi, npts), ylm.py:235 *)
Definition bp_theta (npts : nat) : list R := map (fun k => PI * INR k / INR (npts - 1)) (seq 0 npts).
(** ylm.py:237-242: entry (k, l) of B; [P] is LegendreP *)
Definition bp_design (P : nat -> R -> R) (theta : list R) (k l : nat) : R := sqrt (2 * INR l + 1) * P l (cos (nth k theta 0)).
(** ylm.py:244-246: the diagonal S *)
Definition bp_S (smoothing : R) (l : nat) : R := exp (- 0.5 * INR (l * (l + 1)) * smoothing ^ 2).
(** ylm.py:250-256 *)
Definition spot_profile (theta radius spot_fac : R) : R := let z := spot_fac * (theta - radius) in 1 / (1 + exp (- z)) - 1.

Section Spot.
Variable as_euler : R * R * R -> R * R * R.
(** the result of jnp.linalg.solve(B.T @ B + eps * eye, B.T), ylm.py:243: an (ydeg+1) x npts matrix; what the
    solver promises is stated where it is used *)
Variable solved : nat -> nat -> R.
(** ylm.py:285-287: y[indices] = B @ b * contrast; y[0] += 1 *)
Definition spot_coeffs (ydeg npts : nat) (spot_fac contrast r : R) : list R :=
  let theta := bp_theta npts in
  let Bb := fun l => bigsum npts (fun k => bp_S (bp_smoothing ydeg) l * solved l k * spot_profile (nth k theta 0) r spot_fac) in
  map (fun n => let l := Nat.sqrt n in
                (if (n =? l * (l + 1))%nat then Bb l * contrast else 0) + (if (n =? 0)%nat then 1 else 0))
      (seq 0 ((ydeg + 1) * (ydeg + 1))).
(** ylm.py:259-295 [ylm_spot] *)
Definition ylm_spot (ydeg npts : nat) (spot_fac contrast r lat lon : R) : result ylm :=
  let y := spot_coeffs ydeg npts spot_fac contrast r in
  rbind (dot_rotation_matrix as_euler ydeg (Some 1) (Some 0) (Some 0) (Some lat) y) (fun y =>
  rbind (dot_rotation_matrix as_euler ydeg (Some 0) (Some 1) (Some 0) (Some (- lon)) y) (fun y =>
  ylm_from_dense y false)).
End Spot.
