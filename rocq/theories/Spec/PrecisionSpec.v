(** What multiprecision/precision.py compares with. *)
From Coq Require Import Reals List.
From Verif Require Import Base.RealAux Spec.RotationSpec Spec.YlmSpec Spec.SkySpec.
Open Scope R_scope.

(** the flux of a map of degree d with all coefficients 1, with n limb darkening coefficients 1, that an occultor of radius r at (0, b) leaves;
    limb darkening is normalised to leave the flux of a uniform disk unchanged *)
Definition ones_flux (d n : nat) (b r : R) : R :=
  PI / ld_flux (repeat 1 n) * unhidden_flux 0 b r (fun p => 2 / sqrt PI * map_at d (repeat 1 (ncoef d)) p * ld_profile (repeat 1 n) (snd p)).
