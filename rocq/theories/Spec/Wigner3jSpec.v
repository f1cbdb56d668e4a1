(** The Wigner 3j symbols (j m1; j2 m2; j3 m3), m1 = -(m2+m3), as functions of j for given j2, j3, m2, m3:
    the normalised solution of the three-term recurrence of Schulten and Gordon (Luscombe and Luban 1998,
    Eq. 1), with the standard sign at the largest j. *)
From Coq Require Import Reals ZArith List Bool.
From Verif Require Import Base.RealAux.
Open Scope R_scope.

(** the values of j allowed by the triangle rule and by |m1| <= j *)
Definition allowed_j (j2 j3 m2 m3 j : Z) : Prop := (Z.abs (j2 - j3) <= j <= j2 + j3 /\ Z.abs (m2 + m3) <= j)%Z.
Definition allowed_m (j2 j3 m2 m3 : Z) : Prop := (Z.abs m2 <= j2 /\ Z.abs m3 <= j3)%Z.
Definition sgA (j2 j3 m1 j : R) : R := sqrt ((j ^ 2 - (j2 - j3) ^ 2) * ((j2 + j3 + 1) ^ 2 - j ^ 2) * (j ^ 2 - m1 ^ 2)).
Definition sgB (j2 j3 m2 m3 j : R) : R :=
  (2 * j + 1) * ((m2 + m3) * (j2 * (j2 + 1) - j3 * (j3 + 1)) - (m2 - m3) * j * (j + 1)).
Definition schulten_gordon (j2 j3 m2 m3 : Z) (f : Z -> R) : Prop :=
  forall j, allowed_j j2 j3 m2 m3 j ->
    IZR j * sgA (IZR j2) (IZR j3) (IZR (m2 + m3)) (IZR j + 1) * f (j + 1)%Z
    + sgB (IZR j2) (IZR j3) (IZR m2) (IZR m3) (IZR j) * f j
    + (IZR j + 1) * sgA (IZR j2) (IZR j3) (IZR (m2 + m3)) (IZR j) * f (j - 1)%Z = 0.
(** sum over the allowed j of (2j+1) f(j)^2; j ranges over all 0 <= j <= j2+j3 *)
Definition total_weight (j2 j3 : Z) (f : Z -> R) : R :=
  bigsum (Z.to_nat (j2 + j3 + 1)) (fun n => (2 * INR n + 1) * f (Z.of_nat n) ^ 2).
Definition parity_sign (n : Z) : R := if Z.even n then 1 else -1.
Definition vanishes_outside (j2 j3 m2 m3 : Z) (f : Z -> R) : Prop := forall j, ~ allowed_j j2 j3 m2 m3 j -> f j = 0.
Definition normalised_3j (j2 j3 m2 m3 : Z) (f : Z -> R) : Prop :=
  vanishes_outside j2 j3 m2 m3 f /\ total_weight j2 j3 f = 1 /\ 0 < parity_sign (j2 - j3 + m2 + m3) * f (j2 + j3)%Z.
Definition is_3j (j2 j3 m2 m3 : Z) (f : Z -> R) : Prop :=
  normalised_3j j2 j3 m2 m3 f /\ schulten_gordon j2 j3 m2 m3 f.
(** the selection rules of a single symbol *)
Definition allowed_3j (j1 j2 j3 m1 m2 m3 : Z) : Prop :=
  (m1 + m2 + m3 = 0 /\ Z.abs m1 <= j1 /\ Z.abs m2 <= j2 /\ Z.abs m3 <= j3 /\ j1 <= j2 + j3 /\ j2 <= j1 + j3 /\ j3 <= j1 + j2)%Z.
(** * Racah's formula *)
Definition zfact (n : Z) : R := INR (fact (Z.to_nat n)).
(** 1/n!, and 0 for a negative n *)
Definition inv_fact (n : Z) : R := if (n <? 0)%Z then 0 else / zfact n.
Definition racah_term (j j2 j3 m2 m3 k : Z) : R :=
  parity_sign k * (inv_fact k * inv_fact (j2 + j3 - j - k) * inv_fact (j2 - m2 - k) * inv_fact (j3 + m3 - k) *
                   inv_fact (j - j3 + m2 + k) * inv_fact (j - j2 - m3 + k)).
(** over all k (beyond 2 j2 the terms are 0) *)
Definition racah_sum (j j2 j3 m2 m3 : Z) : R := bigsum (Z.to_nat (2 * j2 + 1)) (fun k => racah_term j j2 j3 m2 m3 (Z.of_nat k)).
(** the triangle coefficient times the factorials of the projections *)
Definition racah_weight (j j2 j3 m2 m3 : Z) : R :=
  zfact (j2 + j3 - j) * zfact (j + j2 - j3) * zfact (j - j2 + j3) / zfact (j + j2 + j3 + 1) *
  (zfact (j + (m2 + m3)) * zfact (j - (m2 + m3)) * zfact (j2 + m2) * zfact (j2 - m2) * zfact (j3 + m3) * zfact (j3 - m3)).
(** the 3j symbol (j m1; j2 m2; j3 m3), m1 = -(m2+m3) *)
Definition racah_3j (j2 j3 m2 m3 j : Z) : R :=
  if ((Z.abs (j2 - j3) <=? j) && (j <=? j2 + j3) && (Z.abs (m2 + m3) <=? j))%Z%bool
  then parity_sign (j2 - j3 + m2 + m3) * sqrt (racah_weight j j2 j3 m2 m3) * racah_sum j j2 j3 m2 m3 else 0.
