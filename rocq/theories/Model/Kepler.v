(** Model of src/jaxoplanet/core/kepler.py.
    Floats are exact reals; jit / broadcasting are not modelled (the function is
    element-wise). *)
From Coq Require Import Reals.
From Verif.Base Require Import RealAux.
Open Scope R_scope.

(** core/kepler.py:82-92 [starter]; the intermediate quantities are named so that the
    domain of each operation can be discussed. *)
Definition st_alpha (M ecc : R) : R :=
  3 * PI / (PI - 6 / PI) + 1.6 / (PI - 6 / PI) * (PI - M) / (1 + ecc).
Definition st_d (M ecc ome : R) : R := 3 * ome + st_alpha M ecc * ecc.
Definition st_r (M ecc ome : R) : R :=
  (3 * (st_alpha M ecc * st_d M ecc ome) * (st_d M ecc ome - ome) + M²) * M.
Definition st_q (M ecc ome : R) : R := 2 * (st_alpha M ecc * st_d M ecc ome) * ome - M².
(** argument of the square root, line 91 *)
Definition st_disc (M ecc ome : R) : R :=
  (st_q M ecc ome)² * st_q M ecc ome + st_r M ecc ome * st_r M ecc ome.
Definition st_w (M ecc ome : R) : R :=
  (cbrt (Rabs (st_r M ecc ome) + sqrt (st_disc M ecc ome)))².
(** first denominator of line 92 *)
Definition st_den (M ecc ome : R) : R :=
  (st_w M ecc ome)² + st_w M ecc ome * st_q M ecc ome + (st_q M ecc ome)².
Definition starter (M ecc ome : R) : R :=
  (2 * st_r M ecc ome * st_w M ecc ome / st_den M ecc ome + M) / st_d M ecc ome.

(** core/kepler.py:95-108 [refine] *)
Definition rf_f0 (M ecc ome E : R) : R := ecc * (E - sin E) + E * ome - M.
Definition rf_f1 (ecc ome E : R) : R := ecc * (1 - cos E) + ome.
Definition rf_f2 (ecc E : R) : R := ecc * (E - (E - sin E)).
Definition rf_f3 (ecc ome E : R) : R := 1 - rf_f1 ecc ome E.
Definition rf_den3 (M ecc ome E : R) : R :=
  rf_f1 ecc ome E - 0.5 * rf_f0 M ecc ome E * rf_f2 ecc E / rf_f1 ecc ome E.
Definition rf_d3 (M ecc ome E : R) : R := - rf_f0 M ecc ome E / rf_den3 M ecc ome E.
Definition rf_den4 (M ecc ome E : R) : R :=
  rf_f1 ecc ome E + 0.5 * rf_d3 M ecc ome E * rf_f2 ecc E
  + (rf_d3 M ecc ome E * rf_d3 M ecc ome E) * rf_f3 ecc ome E / 6.
Definition rf_d4 (M ecc ome E : R) : R := - rf_f0 M ecc ome E / rf_den4 M ecc ome E.
Definition rf_den5 (M ecc ome E : R) : R :=
  let d4 := rf_d4 M ecc ome E in
  let d42 := d4 * d4 in
  rf_f1 ecc ome E + 0.5 * d4 * rf_f2 ecc E + d4 * d4 * rf_f3 ecc ome E / 6
  - d42 * d4 * rf_f2 ecc E / 24.
Definition rf_dE (M ecc ome E : R) : R := - rf_f0 M ecc ome E / rf_den5 M ecc ome E.
Definition refine (M ecc ome E : R) : R := E + rf_dE M ecc ome E.

(** core/kepler.py:30-45: wrapping, starting value, refinement, unwrapping: the
    eccentric anomaly computed by [_kepler]. *)
Definition wrap_M (M : R) : R := Rmod M (2 * PI).
Definition high (M : R) : bool := Rgtb (wrap_M M) PI.
Definition fold_M (M : R) : R := if high M then 2 * PI - wrap_M M else wrap_M M.
Definition ecc_anomaly (M ecc : R) : R :=
  let Mf := fold_M M in
  let ome := 1 - ecc in
  let E := refine Mf ecc ome (starter Mf ecc ome) in
  if high M then 2 * PI - E else E.

(** core/kepler.py:47-56: tan half-angle conversion, given the eccentric anomaly. *)
Definition tan_half_f (E ecc : R) : R := sqrt ((1 + ecc) / (1 - ecc)) * tan (0.5 * E).
Definition true_anomaly (E ecc : R) : R * R :=
  let t := tan_half_f E ecc in
  let t2 := t² in
  let denom := 1 / (1 + t2) in
  (2 * t * denom, (1 - t2) * denom).

(** core/kepler.py:14-25, 28-56 [kepler] = [_kepler] *)
Definition kepler (M ecc : R) : R * R := true_anomaly (ecc_anomaly M ecc) ecc.

(** core/kepler.py:59-79: the custom JVP rule, tangents given as reals ([make_zero] maps
    symbolic zeros to 0).  [sinf],[cosf] are the primal outputs. *)
Definition kepler_fdot (ecc sinf cosf M_dot e_dot : R) : R :=
  let ecosf := ecc * cosf in
  let ome2 := 1 - ecc ^ 2 in
  M_dot * (1 + ecosf) ^ 2 / Rpower ome2 1.5
  + e_dot * (2 + ecosf) * sinf / ome2.
Definition kepler_jvp (kep : R -> R -> R * R) (M ecc M_dot e_dot : R)
  : (R * R) * (R * R) :=
  let '(sinf, cosf) := kep M ecc in
  let f_dot := kepler_fdot ecc sinf cosf M_dot e_dot in
  ((sinf, cosf), (cosf * f_dot, - sinf * f_dot)).
