(** Model of starry/doppler.py:15-57: the radial-velocity map of a rotating body. *)
From Coq Require Import Reals ZArith List Bool.
From Verif Require Import Base.RealAux.
Import ListNotations.
Open Scope R_scope.

(** doppler.py:15-57 [rv_map_expansion] *)
Definition rv_map_expansion (veq inc obl alpha : option R) : list R :=
  let cosi := match inc with Some i => cos i | None => 0 end in
  let sini := match inc with Some i => sin i | None => 1 end in
  let cosl := match obl with Some o => cos o | None => 1 end in
  let sinl := match obl with Some o => sin o | None => 0 end in
  let A := sini * cosl in
  let B := sini * sinl in
  let C := cosi in
  let A2 := A ^ 2 in
  let B2 := B ^ 2 in
  let C2 := C ^ 2 in
  let sq3 := sqrt 3 in
  match veq with
  | None => [0; 0; 0; 0]
  | Some veq =>
    match alpha with
    | None => map (fun v => v * PI) [0; veq * sq3 * B / 3; 0; veq * sq3 * A / 3]
    | Some alpha =>
      map (fun v => v * PI)
        [0;
         veq * sq3 * B * (- A2 * alpha - B2 * alpha - C2 * alpha + 5) / 15;
         0;
         veq * sq3 * A * (- A2 * alpha - B2 * alpha - C2 * alpha + 5) / 15;
         0; 0; 0; 0; 0;
         veq * alpha * sqrt 70 * B * (3 * A2 - B2) / 70;
         veq * alpha * 2 * sqrt 105 * C * (- A2 + B2) / 105;
         veq * alpha * sqrt 42 * B * (A2 + B2 - 4 * C2) / 210;
         0;
         veq * alpha * sqrt 42 * A * (A2 + B2 - 4 * C2) / 210;
         veq * alpha * 4 * sqrt 105 * A * B * C / 105;
         veq * alpha * sqrt 70 * A * (A2 - 3 * B2) / 70]
    end
  end.
